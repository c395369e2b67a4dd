(** Proofs about site selections. *)
From Verif Require Import Common LayoutModel LayoutSpec LayoutProofs1 LayoutProofs2 ReduceProofs1 IoModel IoSpec IoProofs1.
From Verif Require Import SelectModel SelectSpec.

(** ** Site indices *)
Lemma index_from_scale : forall ls c m, index_from m ls c = m * index_from 1 ls c.
Proof.
  induction ls as [|n ls IH]; intros [|x c] m; cbn [index_from]; try lia.
  rewrite (IH c (m * n)), (IH c (1 * n)). ring.
Qed.

Lemma index_cons : forall n ls x c, SiteIndex (n :: ls) (x :: c) = x + n * SiteIndex ls c.
Proof. intros. unfold SiteIndex. cbn [index_from]. rewrite index_from_scale. ring. Qed.

Lemma is_site_cons : forall n ls x c, is_site (n :: ls) (x :: c) <-> 0 <= x < n /\ is_site ls c.
Proof.
  intros. split.
  - intros [Hl H]. split; [apply (H 0%nat); cbn; lia|]. split; [cbn in Hl; lia|].
    intros j Hj. apply (H (S j)). cbn. lia.
  - intros [Hx [Hl H]]. split; [cbn; lia|]. intros [|j] Hj; [auto|]. cbn [nth]. apply H. cbn in Hj. lia.
Qed.

Lemma index_range : forall ls c, is_site ls c -> 0 <= SiteIndex ls c < zprod ls.
Proof.
  induction ls as [|n ls IH]; intros [|x c] H; try (destruct H; discriminate).
  - cbn. lia.
  - apply is_site_cons in H. destruct H as [Hx Hc]. apply IH in Hc. rewrite index_cons, zprod_cons. nia.
Qed.

Lemma index_coordinates : forall ls c, is_site ls c -> global_coordinates ls (SiteIndex ls c) = c.
Proof.
  induction ls as [|n ls IH]; intros [|x c] H; try (destruct H; discriminate); auto.
  apply is_site_cons in H. destruct H as [Hx Hc]. cbn [global_coordinates]. rewrite index_cons.
  replace ((x + n * SiteIndex ls c) mod n) with x.
  - replace ((x + n * SiteIndex ls c) / n) with (SiteIndex ls c); [rewrite IH; auto|].
    apply (Z.div_unique _ _ _ x); lia.
  - apply (Z.mod_unique _ _ (SiteIndex ls c)); lia.
Qed.

Lemma index_inj : forall ls c c', is_site ls c -> is_site ls c' -> SiteIndex ls c = SiteIndex ls c' -> c = c'.
Proof. intros. rewrite <- (index_coordinates ls c), <- (index_coordinates ls c') by auto. congruence. Qed.

(** ** Vectors *)
Lemma set_nth_some : forall A (v : A) n l, (n < length l)%nat -> exists l', set_nth n v l = Some l'.
Proof.
  induction n; intros [|h t] H; cbn in H; try lia; cbn; [eauto|].
  destruct (IHn t) as (l' & ->); [lia|eauto].
Qed.

Lemma set_nth_spec : forall A (v : A) n l l', set_nth n v l = Some l' ->
  (n < length l)%nat /\ length l' = length l /\ firstn n l' = firstn n l /\ firstn (S n) l' = firstn n l ++ [v].
Proof.
  induction n; intros [|h t] l' H; cbn [set_nth] in H; try discriminate.
  - injection H as <-. cbn. repeat split; auto; lia.
  - destruct (set_nth n v t) as [t'|] eqn:E; [|discriminate]. injection H as <-.
    destruct (IHn _ _ E) as (A1 & A2 & A3 & A4). cbn [length]. repeat split; try lia.
    + cbn [firstn]. congruence.
    + cbn [firstn] in *. change (h :: match t' with [] => [] | a :: l => a :: firstn n l end = (h :: firstn n t) ++ [v]).
      rewrite A4. auto.
Qed.

Lemma resize_shrink : forall A (d : A) n l, (n <= length l)%nat -> resize d n l = firstn n l.
Proof. intros. unfold resize. replace (n - length l)%nat with 0%nat by lia. cbn. apply app_nil_r. Qed.

Lemma resize_length : forall A (d : A) n l, length (resize d n l) = n.
Proof. intros. unfold resize. rewrite app_length, firstn_length, repeat_length. lia. Qed.

(** ** The loop on one rank *)
Section Loop.
  Variable V : Type.
  Variable dv : V.
  Variable hv : bool.
  Variable ls : list Z.
  Variable calls : list Z -> list V.
  Variable vol : nat.

  Definition called (c : list Z) : bool := match calls c with [] => false | _ => true end.
  Definition chosen (cs : list (list Z)) : list (list Z) := filter called cs.
  Definition first_value (c : list Z) : V := hd dv (calls c).

  Lemma called_iff : forall c, called c = true <-> selected calls c.
  Proof. intros. unfold called, selected. destruct (calls c); split; congruence. Qed.

  (** After a loop over the sites [cs]. *)
  Definition state_ok (cs : list (list Z)) (s : rank_sel V) : Prop :=
    s_cur s = length (chosen cs) /\ length (s_sites s) = vol /\
    firstn (s_cur s) (s_sites s) = map (SiteIndex ls) (chosen cs) /\
    (hv = true -> length (s_values s) = vol /\ firstn (s_cur s) (s_values s) = map first_value (chosen cs)) /\
    (s_prev s = SIZE_MAX \/ In (s_prev s) (map (SiteIndex ls) cs)) /\ s_over s = 0.

  (** Further calls at the site selected last change nothing that counts. *)
  Lemma again : forall i s0 (vs : list V) s k, s_cur s = S k -> s_prev s = i ->
    firstn (S k) (s_sites s) = s0 ++ [i] -> length s0 = k ->
    (hv = false -> exists s', site_calls hv i vs s = Some s') /\
    forall s', site_calls hv i vs s = Some s' ->
      s_cur s' = S k /\ s_prev s' = i /\ firstn (S k) (s_sites s') = s0 ++ [i] /\
      length (s_sites s') = length (s_sites s) /\ length (s_values s') = length (s_values s) /\
      firstn (S k) (s_values s') = firstn (S k) (s_values s) /\ s_over s' = s_over s.
  Proof.
    intros i s0. induction vs as [|v vs IH]; intros s k Hk Hp Hs Hl; cbn [site_calls].
    - split; [eauto|]. intros s' E. injection E as <-. repeat split; auto.
    - assert (Hlen : (k < length (s_sites s))%nat).
      { apply (f_equal (@length Z)) in Hs. rewrite firstn_length, app_length in Hs. cbn [length] in Hs. lia. }
      assert (Hone : (hv = false -> exists s1, select_call hv i v s = Some s1) /\
        forall s1, select_call hv i v s = Some s1 ->
        s_cur s1 = S k /\ s_prev s1 = i /\ firstn (S k) (s_sites s1) = s0 ++ [i] /\
        length (s_sites s1) = length (s_sites s) /\ length (s_values s1) = length (s_values s) /\
        firstn (S k) (s_values s1) = firstn (S k) (s_values s) /\ s_over s1 = s_over s).
      { assert (Hsame : forall l, set_nth k i (s_sites s) = Some l ->
          firstn (S k) l = s0 ++ [i] /\ length l = length (s_sites s)).
        { intros l E. apply set_nth_spec in E. destruct E as (_ & E1 & _ & E2). split; auto. rewrite E2.
          apply (f_equal (firstn k)) in Hs. rewrite firstn_firstn, Nat.min_l in Hs by lia. rewrite Hs.
          rewrite firstn_app, <- Hl, firstn_all, Nat.sub_diag. cbn. rewrite app_nil_r. auto. }
        unfold select_call. destruct hv.
        - split; [discriminate|]. unfold select_site_value. intros s1 E.
          destruct (set_nth (s_cur s) v (s_values s)) as [lv|] eqn:Ev; [|discriminate].
          unfold select_site in E. cbn [s_prev s_cur s_sites s_values s_over] in E.
          rewrite Hp, Z.eqb_refl, Hk in E.
          destruct (set_nth k i (s_sites s)) as [l|] eqn:El; [|discriminate].
          injection E as <-. cbn. destruct (Hsame _ eq_refl). rewrite Hk in Ev. apply set_nth_spec in Ev.
          destruct Ev as (_ & E1 & E2 & _). cbn in E2. repeat split; auto.
        - unfold select_site. rewrite Hp, Z.eqb_refl, Hk.
          destruct (set_nth_some _ i k _ Hlen) as (l & El). rewrite El. split; [eauto|].
          intros s1 E. injection E as <-. cbn. destruct (Hsame _ El). repeat split; auto. }
      destruct Hone as [Hone1 Hone2]. split.
      + intros Hf. destruct (Hone1 Hf) as (s1 & E). rewrite E. destruct (Hone2 _ E) as (A1 & A2 & A3 & _).
        apply (IH s1 k); auto.
      + intros s' E. destruct (select_call hv i v s) as [s1|] eqn:E1; [|discriminate].
        destruct (Hone2 _ eq_refl) as (A1 & A2 & A3 & A4 & A5 & A6 & A7).
        destruct (IH s1 k A1 A2 A3 Hl) as [_ IH2]. destruct (IH2 _ E) as (B1 & B2 & B3 & B4 & B5 & B6 & B7).
        repeat split; auto; congruence.
  Qed.

  Lemma firstn_length_eq : forall A n (l m : list A), firstn n l = m -> length m = n -> (n <= length l)%nat.
  Proof. intros. apply (f_equal (@length A)) in H. rewrite firstn_length in H. lia. Qed.

  Lemma one_site : forall cs c s, state_ok cs s -> (length (chosen cs) < vol)%nat ->
    SiteIndex ls c <> SIZE_MAX -> ~ In (SiteIndex ls c) (map (SiteIndex ls) cs) ->
    (hv = false \/ (length (calls c) <= 1)%nat -> exists s', site_calls hv (SiteIndex ls c) (calls c) s = Some s') /\
    forall s', site_calls hv (SiteIndex ls c) (calls c) s = Some s' -> state_ok (cs ++ [c]) s'.
  Proof.
    intros cs c s (Hc & Hl & Hs & Hval & Hp & Ho) Hvol Hmax Hnew. set (i := SiteIndex ls c) in *.
    assert (Hip : i <> s_prev s) by (intros E; destruct Hp as [Hp|Hp]; congruence).
    assert (Hch : chosen (cs ++ [c]) = chosen cs ++ if called c then [c] else []).
    { unfold chosen. rewrite filter_app. cbn. destruct (called c); auto. }
    assert (Hprev : forall q, q = SIZE_MAX \/ In q (map (SiteIndex ls) cs) ->
      q = SIZE_MAX \/ In q (map (SiteIndex ls) (cs ++ [c]))).
    { intros q [H|H]; auto. right. rewrite map_app, in_app_iff. auto. }
    unfold called in Hch. destruct (calls c) as [|v vs] eqn:Ecalls; cbn [site_calls].
    - rewrite app_nil_r in Hch. split; [eauto|]. intros s' E. injection E as <-.
      unfold state_ok. rewrite Hch. repeat split; auto; apply Hval; auto.
    - assert (Hstep : (exists s1, select_call hv i v s = Some s1) /\
        forall s1, select_call hv i v s = Some s1 ->
        s_cur s1 = S (s_cur s) /\ s_prev s1 = i /\ length (s_sites s1) = vol /\ s_over s1 = 0 /\
        firstn (S (s_cur s)) (s_sites s1) = map (SiteIndex ls) (chosen cs) ++ [i] /\
        (hv = true -> length (s_values s1) = vol /\
           firstn (S (s_cur s)) (s_values s1) = map first_value (chosen cs) ++ [v])).
      { assert (Hsite : forall (lv : list V), exists l, select_site i (mkSel (s_sites s) lv (s_cur s) (s_prev s) (s_over s)) =
          Some (mkSel l lv (S (s_cur s)) i (s_over s)) /\ length l = vol /\
          firstn (S (s_cur s)) l = map (SiteIndex ls) (chosen cs) ++ [i]).
        { intros lv. unfold select_site. cbn [s_prev s_cur s_sites s_values s_over].
          destruct (Z.eqb_spec i (s_prev s)); [congruence|].
          destruct (set_nth_some _ i (s_cur s) (s_sites s)) as (l & El); [lia|]. rewrite El. exists l.
          apply set_nth_spec in El. destruct El as (_ & E1 & _ & E2). split; auto. split; [lia|]. congruence. }
        unfold select_call. destruct hv.
        - destruct (Hval eq_refl) as [Hvl Hvv]. unfold select_site_value.
          destruct (set_nth_some _ v (s_cur s) (s_values s)) as (lv & Ev); [lia|]. rewrite Ev.
          destruct (Hsite lv) as (l & -> & E1 & E2). split; [eauto|]. intros s1 E. injection E as <-. cbn [s_cur s_prev s_sites s_values s_over].
          apply set_nth_spec in Ev. destruct Ev as (_ & F1 & _ & F2). repeat split; auto; [lia|congruence].
        - destruct (Hsite (s_values s)) as (l & E0 & E1 & E2). destruct s as [ss sv sc sp so]. cbn [s_cur s_prev s_sites s_values s_over] in *.
          rewrite E0. split; [eauto|]. intros s1 E. injection E as <-. cbn [s_cur s_prev s_sites s_values s_over].
          split; [auto|]. split; [auto|]. split; [auto|]. split; [auto|]. split; [auto|]. discriminate. }
      destruct Hstep as [(s1 & E1) Hstep]. rewrite E1. destruct (Hstep _ E1) as (A1 & A2 & A3 & A4 & A5 & A6).
      assert (Hlen : length (map (SiteIndex ls) (chosen cs)) = s_cur s) by (rewrite map_length; auto).
      destruct (again i (map (SiteIndex ls) (chosen cs)) vs s1 (s_cur s) A1 A2 A5 Hlen) as [Ag1 Ag2]. split.
      + intros [Hf|Hf]; [apply Ag1; auto|]. cbn in Hf. destruct vs; [|cbn in Hf; lia]. cbn. eauto.
      + intros s' E. destruct (Ag2 _ E) as (B1 & B2 & B3 & B4 & B5 & B6 & B7).
        assert (Hfv : first_value c = v) by (unfold first_value; rewrite Ecalls; auto).
        unfold state_ok. rewrite Hch, !map_app, app_length, B1. cbn [map length].
        split; [lia|]. split; [lia|]. split; [auto|]. split; [|split; [|lia]].
        * intros Hh. destruct (A6 Hh) as [C1 C2]. split; [lia|]. rewrite Hfv. congruence.
        * right. rewrite in_app_iff. right. left. auto.
  Qed.

  Lemma chosen_length : forall cs, (length (chosen cs) <= length cs)%nat.
  Proof. intros. unfold chosen. induction cs; cbn; auto. destruct (called a); cbn; lia. Qed.

  Lemma all_sites : forall cs done s, state_ok done s -> (length done + length cs <= vol)%nat ->
    NoDup (map (SiteIndex ls) (done ++ cs)) -> (forall c, In c cs -> SiteIndex ls c <> SIZE_MAX) ->
    (hv = false \/ (forall c, In c cs -> (length (calls c) <= 1)%nat) -> exists s', loop_calls hv ls calls cs s = Some s') /\
    forall s', loop_calls hv ls calls cs s = Some s' -> state_ok (done ++ cs) s'.
  Proof.
    induction cs as [|c cs IH]; intros done s Hs Hl Hnd Hm; cbn [loop_calls].
    - rewrite app_nil_r. split; [eauto|]. intros s' E. injection E as <-. auto.
    - cbn [length] in Hl. assert (Hc := chosen_length done).
      assert (Hnew : ~ In (SiteIndex ls c) (map (SiteIndex ls) done)).
      { rewrite map_app in Hnd. cbn [map] in Hnd. apply NoDup_remove_2 in Hnd. rewrite in_app_iff in Hnd. tauto. }
      destruct (one_site done c s Hs) as [H1 H2]; auto; [lia|apply Hm; left; auto|].
      assert (Happ : done ++ c :: cs = (done ++ [c]) ++ cs) by (rewrite <- app_assoc; auto).
      assert (Hgo : forall s1, state_ok (done ++ [c]) s1 ->
        (hv = false \/ (forall c, In c cs -> (length (calls c) <= 1)%nat) -> exists s', loop_calls hv ls calls cs s1 = Some s') /\
        forall s', loop_calls hv ls calls cs s1 = Some s' -> state_ok (done ++ c :: cs) s').
      { intros s1 Hs1. rewrite Happ. apply IH; auto.
        - rewrite app_length. cbn. lia.
        - rewrite <- Happ. auto.
        - intros x Hx. apply Hm. right. auto. }
      split.
      + intros Hcond. destruct H1 as (s1 & E1).
        { destruct Hcond as [Hf|Hf]; [left; auto|right; apply Hf; left; auto]. }
        rewrite E1. apply (Hgo s1); auto. destruct Hcond as [Hf|Hf]; [left; auto|right; intros x Hx; apply Hf; right; auto].
      + intros s' E. destruct (site_calls hv (SiteIndex ls c) (calls c) s) as [s1|] eqn:E1; [|discriminate].
        apply (Hgo s1); auto.
  Qed.

  Lemma setup_ok : forall s, state_ok [] (setup dv hv (Z.of_nat vol) s).
  Proof.
    intros. unfold state_ok, setup. cbn [s_cur s_sites s_values s_prev s_over chosen filter length map].
    rewrite Nat2Z.id, resize_length. split; [auto|]. split; [auto|]. split; [auto|]. split; [|auto].
    intros ->. rewrite resize_length. auto.
  Qed.

  (** endloop_action. *)
  Definition rank_result (nmax : Z) (l : list (list Z)) (s : rank_sel V) : Prop :=
    s_sites s = map (SiteIndex ls) (firstn (Z.to_nat nmax) l) /\
    (hv = true -> s_values s = map first_value (firstn (Z.to_nat nmax) l)) /\
    s_over s = Z.of_nat (length l) - Z.of_nat (length (firstn (Z.to_nat nmax) l)).

  Lemma endloop_ok : forall nmax cs s, 0 <= nmax -> Z.of_nat vol < 2 ^ 64 -> (length cs <= vol)%nat ->
    state_ok cs s -> rank_result nmax (chosen cs) (endloop dv hv nmax s).
  Proof.
    intros nmax cs s Hn Hv Hcs (Hc & Hl & Hs & Hval & Hp & Ho). assert (Hlen := chosen_length cs).
    unfold rank_result, endloop. cbn [s_sites s_values s_over].
    destruct (Z.ltb_spec nmax (Z.of_nat (s_cur s))) as [Hlt|Hge].
    - assert (Hk : (Z.to_nat nmax <= s_cur s)%nat) by lia. rewrite firstn_length.
      split; [|split].
      + rewrite resize_shrink by lia. rewrite <- firstn_map, <- Hs, firstn_firstn, Nat.min_l by lia. auto.
      + intros Hh. rewrite Hh. destruct (Hval Hh) as [Hv1 Hv2]. rewrite resize_shrink by lia.
        rewrite <- firstn_map, <- Hv2, firstn_firstn, Nat.min_l by lia. auto.
      + unfold size_sub. rewrite Z.mod_small by lia. lia.
    - rewrite (firstn_all2 (chosen cs)) by lia. split; [|split].
      + rewrite resize_shrink by lia. auto.
      + intros Hh. rewrite Hh. destruct (Hval Hh) as [Hv1 Hv2]. rewrite resize_shrink by lia. auto.
      + lia.
  Qed.

  (** ** Joining *)
  Lemma firstn_app_firstn : forall A n (l m : list A),
    firstn n (l ++ m) = firstn n l ++ firstn (n - length (firstn n l)) m.
  Proof.
    intros. rewrite firstn_app. f_equal. rewrite firstn_length. destruct (Nat.le_ge_cases n (length l)).
    - rewrite Nat.min_l by auto. replace (n - length l)%nat with 0%nat by lia. replace (n - n)%nat with 0%nat by lia. auto.
    - rewrite Nat.min_r by auto. auto.
  Qed.

  Lemma take_one : forall nmax l m s o, 0 <= nmax < 2 ^ 64 -> Z.of_nat (length m) < 2 ^ 64 ->
    rank_result nmax l s -> rank_result nmax m o ->
    exists s', take_reply hv (answer dv hv (size_sub nmax (Z.of_nat (length (s_sites s)))) o) s = Some s' /\
      rank_result nmax (l ++ m) s'.
  Proof.
    intros nmax l m s o Hn Hm (Hs1 & Hs2 & Hs3) (Ho1 & Ho2 & Ho3). unfold rank_result.
    rewrite firstn_app_firstn. set (N := Z.to_nat nmax) in *. set (k := length (firstn N l)) in *.
    assert (Hk : (k <= N)%nat) by (unfold k; rewrite firstn_length; lia).
    assert (Hsz : length (s_sites s) = k) by (rewrite Hs1, map_length; auto). rewrite Hsz.
    assert (Hnsend : size_sub nmax (Z.of_nat k) = nmax - Z.of_nat k) by (unfold size_sub; apply Z.mod_small; lia).
    rewrite Hnsend. unfold answer. destruct (Z.ltb_spec 0 (nmax - Z.of_nat k)) as [Hpos|Hzero].
    - set (sent := (if nmax - Z.of_nat k <? Z.of_nat (length (s_sites o))
        then resize 0 (Z.to_nat (nmax - Z.of_nat k)) (s_sites o) else s_sites o)) in *.
      assert (HN : Z.to_nat (nmax - Z.of_nat k) = (N - k)%nat) by lia.
      assert (Elo : length (s_sites o) = length (firstn N m)) by (rewrite Ho1, map_length; auto).
      assert (Hf : firstn (N - k) (firstn N m) = firstn (N - k) m) by (rewrite firstn_firstn, Nat.min_l by lia; auto).
      assert (Hsent : sent = map (SiteIndex ls) (firstn (N - k) m)).
      { unfold sent. rewrite HN. destruct (Z.ltb_spec (nmax - Z.of_nat k) (Z.of_nat (length (s_sites o)))).
        - rewrite resize_shrink by lia. rewrite Ho1, firstn_map, Hf. auto.
        - rewrite Ho1, <- Hf. f_equal. symmetry. apply firstn_all2. lia. }
      unfold take_reply. rewrite rev_app_distr. cbn [rev app]. rewrite rev_involutive. eexists. split; [reflexivity|].
      cbn [s_sites s_values s_over]. rewrite !map_app. split; [|split].
      + rewrite Hs1, Hsent. auto.
      + intros Hh. rewrite Hh, (Hs2 Hh). f_equal. rewrite app_length. cbn [length].
        replace (length sent + 1 - 1)%nat with (length sent) by lia.
        assert (Hls : length sent = length (firstn (N - k) m)) by (rewrite Hsent, map_length; auto).
        assert (Hlv : length (s_values o) = length (firstn N m)) by (rewrite Ho2, map_length; auto).
        rewrite firstn_length in Hls, Hlv. rewrite resize_shrink by lia.
        rewrite (Ho2 Hh), firstn_map. f_equal. rewrite firstn_firstn, Hls.
        destruct (Nat.le_ge_cases (N - k) (length m)).
        * rewrite (Nat.min_l (N - k)) by lia. rewrite Nat.min_l by lia. auto.
        * rewrite (Nat.min_r (N - k)) by lia. rewrite Nat.min_l by lia. rewrite firstn_all, firstn_all2 by lia. auto.
      + rewrite Hs3, Ho3, !app_length. fold k. rewrite Elo. unfold size_sub. rewrite !firstn_length.
        destruct (Z.ltb_spec (nmax - Z.of_nat k) (Z.of_nat (Nat.min N (length m)))); [rewrite Z.mod_small by lia|]; lia.
    - unfold take_reply. eexists. split; [reflexivity|]. cbn [s_sites s_values s_over].
      replace (N - k)%nat with 0%nat by lia. cbn [firstn]. rewrite app_nil_r. split; [auto|]. split; [auto|].
      rewrite Hs3, Ho3, Ho1, map_length, app_length. fold k. lia.
  Qed.

  Lemma collect_ok : forall nmax ms os l s, 0 <= nmax < 2 ^ 64 ->
    Forall (fun m => Z.of_nat (length m) < 2 ^ 64) ms -> rank_result nmax l s -> Forall2 (rank_result nmax) ms os ->
    exists s', collect dv hv nmax os s = Some s' /\ rank_result nmax (l ++ concat ms) s'.
  Proof.
    intros nmax. induction ms as [|m ms IH]; intros os l s Hn Hm Hs Ho; inversion Ho; subst; cbn [collect concat].
    - rewrite app_nil_r. eauto.
    - inversion Hm; subst. destruct (take_one nmax l m s y Hn H2 Hs H1) as (s1 & E1 & H1'). rewrite E1.
      rewrite app_assoc. apply IH; auto.
  Qed.
End Loop.
