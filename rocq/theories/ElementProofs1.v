(** C13: single elements; C14: the scan and gather_elements. *)
From Verif Require Import Common LayoutModel LayoutSpec LayoutProofs1 LayoutProofs2.
From Verif Require Import ElementModel ElementSpec.

Lemma on_node_owner : forall lat r c, valid_lattice lat -> is_rank lat r -> is_site (l_size lat) c ->
  is_on_node (nodeinfo lat r) c = (node_rank lat c =? r).
Proof.
  intros lat r c Hv Hr Hc. destruct (owner_unique lat c Hv Hc) as [_ H]. specialize (H r Hr).
  rewrite holds_on_node in H. destruct (is_on_node _ _); symmetry.
  - apply Z.eqb_eq. symmetry. tauto.
  - apply Z.eqb_neq. intros E. symmetry in E. apply H in E. discriminate.
Qed.

Lemma owner_holds : forall lat c, valid_lattice lat -> is_site (l_size lat) c ->
  is_rank lat (node_rank lat c) /\ holds lat (node_rank lat c) c.
Proof.
  intros lat c Hv Hc. destruct (owner_unique lat c Hv Hc) as [H1 H2]. split; auto. apply H2; auto.
Qed.

Section Single.
  Context {V : Type}.
  Variable lat : lattice.
  Hypothesis Hv : valid_lattice lat.

  Lemma put_same : forall (F : list Z -> V) c v, put F c v c = v.
  Proof. intros. unfold put. destruct (site_eq_dec c c); tauto. Qed.
  Lemma put_other : forall (F : list Z -> V) c v x, x <> c -> put F c v x = F x.
  Proof. intros. unfold put. destruct (site_eq_dec x c); tauto. Qed.

  Lemma set_represents : forall (st : rank_store V) F c v, represents lat st F ->
    is_site (l_size lat) c -> represents lat (set_element lat c v st) (put F c v).
  Proof.
    intros st F c v HF Hc r x Hr Hx. unfold set_element.
    destruct (site_index_bijection lat r Hv Hr) as (_ & Hinj & _).
    destruct (is_on_node (nodeinfo lat r) c) eqn:E.
    - apply holds_on_node in E. destruct (site_eq_dec x c) as [->|Hn].
      + rewrite zupd_same, put_same. auto.
      + rewrite zupd_other, put_other by auto. apply HF; auto.
    - rewrite put_other; [apply HF; auto|]. intros ->. apply holds_on_node in Hx. congruence.
  Qed.

  Lemma compound_is_set : forall (st : rank_store V) F c f r, represents lat st F ->
    is_rank lat r -> compound_element lat c f st r = set_element lat c (f (F c)) st r.
  Proof.
    intros st F c f r HF Hr. unfold compound_element, set_element.
    destruct (is_on_node (nodeinfo lat r) c) eqn:E; auto.
    apply holds_on_node in E. rewrite (HF r c Hr E). auto.
  Qed.

  Lemma get_element_ok : forall (st : rank_store V) F c r, represents lat st F ->
    is_site (l_size lat) c -> get_element lat c st r = Some (F c).
  Proof.
    intros st F c r HF Hc. unfold get_element, broadcast. rewrite Z.eqb_refl.
    destruct (owner_holds lat c Hv Hc) as [H1 H2]. rewrite (HF _ _ H1 H2). auto.
  Qed.

  Lemma represents_ext : forall (st st' : rank_store V) F, represents lat st F ->
    (forall r, is_rank lat r -> st' r = st r) -> represents lat st' F.
  Proof. intros st st' F HF H r c Hr Hc. rewrite H by auto. apply HF; auto. Qed.

  Definition output_matches (o : option (Z -> option V)) (g : option V) : Prop :=
    match o, g with
    | Some f, Some v => forall r, is_rank lat r -> f r = Some v
    | None, None => True
    | _, _ => False
    end.

  Lemma elem_step_ok : forall op (st : rank_store V) F, represents lat st F ->
    is_site (l_size lat) (op_site op) ->
    represents lat (fst (elem_step lat op st)) (fst (global_step op F)) /\
    output_matches (snd (elem_step lat op st)) (snd (global_step op F)).
  Proof.
    intros op st F HF Hc. destruct op; cbn [op_site] in Hc; cbn [elem_step global_step fst snd output_matches].
    - split; auto. apply set_represents; auto.
    - split; auto. eapply represents_ext; [apply (set_represents st F c (f (F c))); auto|].
      intros r Hr. apply compound_is_set; auto.
    - split; auto. intros r Hr. apply get_element_ok; auto.
    - split.
      + eapply represents_ext; [apply (set_represents st F c (f (F c))); auto|].
        intros r Hr. unfold set_own. rewrite (get_element_ok st F c r HF Hc). reflexivity.
      + intros r Hr. apply get_element_ok; auto.
    - split.
      + eapply represents_ext; [apply (set_represents st F c (f (F c))); auto|].
        intros r Hr. unfold set_own. rewrite (get_element_ok st F c r HF Hc). reflexivity.
      + intros r Hr. rewrite (get_element_ok st F c r HF Hc). reflexivity.
  Qed.

  Lemma elem_run_ok : forall ops (st : rank_store V) F, represents lat st F ->
    Forall (fun op => is_site (l_size lat) (op_site op)) ops ->
    represents lat (fst (elem_run lat ops st)) (fst (global_run ops F)) /\
    Forall2 output_matches (snd (elem_run lat ops st)) (snd (global_run ops F)).
  Proof.
    induction ops as [|op ops IH]; intros st F HF Ho; cbn [elem_run global_run].
    - split; auto. constructor.
    - inversion Ho; subst. destruct (elem_step_ok op st F HF H1) as [A1 A2].
      destruct (elem_step lat op st) as [st1 o]. destruct (global_step op F) as [F1 g].
      cbn [fst snd] in A1, A2. destruct (IH st1 F1 A1 H2) as [B1 B2].
      destruct (elem_run lat ops st1) as [st2 os]. destruct (global_run ops F1) as [F2 gs].
      cbn [fst snd] in *. split; auto.
  Qed.
End Single.

(** ** The scan *)
Section Scan.
  Variable lat : lattice.

  Definition on_rank (n : Z) (coords : list (list Z)) : list (list Z) :=
    filter (fun c => node_rank lat c =? n) coords.

  Definition ranks : list Z := zrange 0 (Z.to_nat (number_of_nodes lat)).
  Definition cnt (coords : list (list Z)) (n : Z) : Z := Z.of_nat (length (on_rank n coords)).
  Definition active (coords : list (list Z)) (root n : Z) : bool :=
    (0 <? cnt coords n) && negb (n =? root).

  Lemma on_rank_app : forall n a b, on_rank n (a ++ b) = on_rank n a ++ on_rank n b.
  Proof.
    intros n a b. unfold on_rank. induction a as [|x a IH]; simpl; auto.
    destruct (node_rank lat x =? n); simpl; rewrite IH; auto.
  Qed.

  Lemma cnt_snoc : forall coords c n,
    cnt (coords ++ [c]) n = cnt coords n + if node_rank lat c =? n then 1 else 0.
  Proof.
    intros. unfold cnt. rewrite on_rank_app, app_length. unfold on_rank at 2. cbn [filter].
    destruct (node_rank lat c =? n); cbn [length]; lia.
  Qed.

  Lemma filter_one_more : forall (p q : Z -> bool) l k, NoDup l -> In k l -> p k = false ->
    q k = true -> (forall n, n <> k -> q n = p n) ->
    length (filter q l) = S (length (filter p l)).
  Proof.
    induction l as [|x l IH]; intros k Hnd Hk Hp Hq Hs; [destruct Hk|].
    inversion Hnd; subst. destruct (Z.eq_dec x k) as [->|Hne].
    - cbn [filter]. rewrite Hp, Hq. cbn [length]. f_equal. f_equal.
      apply filter_ext_In. intros y Hy. apply Hs. intros ->. auto.
    - destruct Hk as [->|Hk]; [tauto|]. cbn [filter]. rewrite (Hs x Hne).
      destruct (p x); cbn [length]; rewrite (IH k); auto.
  Qed.

  Lemma scan_ok : forall me root coords,
    Forall (fun c => is_rank lat (node_rank lat c)) coords ->
    let s := run_scan lat me root coords in
    index_list s = map (site_index (nodeinfo lat me)) (on_rank me coords) /\
    (forall n, sites_on_rank s n = cnt coords n) /\
    nranks s = Z.of_nat (length (filter (active coords root) ranks)) /\
    reshuffle_list s = map (node_rank lat) coords.
  Proof.
    intros me root coords. induction coords as [|c coords IH] using rev_ind; intros Hr.
    - cbn. split; auto. split; auto. split; auto. unfold active, cnt. cbn [on_rank filter length].
      clear. induction ranks; simpl; auto.
    - apply Forall_app in Hr. destruct Hr as [Hr Hc]. inversion Hc; subst. clear Hc H2.
      specialize (IH Hr). unfold run_scan in *. rewrite fold_left_app. cbn [fold_left].
      cbv zeta in *. destruct (fold_left (scan_step lat me root) coords _) as [il sr nr rl].
      cbn [index_list sites_on_rank nranks reshuffle_list] in IH. destruct IH as (I1 & I2 & I3 & I4).
      unfold scan_step. cbn [index_list sites_on_rank nranks reshuffle_list].
      split; [|split; [|split]].
      + rewrite on_rank_app, map_app, <- I1. unfold on_rank. cbn [filter].
        rewrite Z.eqb_sym. destruct (node_rank lat c =? me); [reflexivity|]. simpl. rewrite app_nil_r. auto.
      + intros n. rewrite cnt_snoc. destruct (Z.eqb_spec (node_rank lat c) n) as [<-|Hn].
        * rewrite zupd_same, I2. auto.
        * rewrite zupd_other by auto. rewrite I2. lia.
      + rewrite I2, I3. set (k := node_rank lat c) in *.
        destruct ((cnt coords k =? 0) && negb (k =? root)) eqn:E.
        * apply andb_true_iff in E. destruct E as [E1 E2].
          rewrite (filter_one_more (active coords root) (active (coords ++ [c]) root) ranks k); try lia.
          -- apply zrange_NoDup.
          -- apply zrange_In. unfold is_rank in H1. lia.
          -- unfold active. rewrite E2. destruct (0 <? cnt coords k) eqn:E3; auto. lia.
          -- unfold active. rewrite E2, andb_true_r, cnt_snoc. fold k. rewrite Z.eqb_refl. lia.
          -- intros n Hn. unfold active. rewrite cnt_snoc. fold k.
             destruct (Z.eqb_spec k n); [congruence|]. rewrite Z.add_0_r. auto.
        * f_equal. f_equal. apply filter_ext_In. intros n _. unfold active. rewrite cnt_snoc. fold k.
          destruct (Z.eqb_spec k n) as [<-|]; [|rewrite Z.add_0_r; auto].
          destruct (negb (k =? root)); [|rewrite !andb_false_r; auto]. rewrite andb_true_r in E.
          rewrite !andb_true_r. assert (0 <= cnt coords k) by (unfold cnt; lia). lia.
      + rewrite map_app, I4. auto.
  Qed.

  (** The counts add up. *)
  Lemma zsum_one : forall l k, NoDup l -> In k l -> zsum (map (fun n => if k =? n then 1 else 0) l) = 1.
  Proof.
    assert (H0 : forall l k, ~ In k l -> zsum (map (fun n => if k =? n then 1 else 0) l) = 0).
    { induction l as [|x l IH]; intros k Hk; cbn [map]; auto. rewrite zsum_cons, IH by (simpl in Hk; tauto).
      destruct (Z.eqb_spec k x); [subst; simpl in Hk; tauto|lia]. }
    induction l as [|x l IH]; intros k Hnd Hk; [destruct Hk|]. inversion Hnd; subst. cbn [map]. rewrite zsum_cons.
    destruct (Z.eqb_spec k x) as [->|Hn].
    - rewrite H0; auto.
    - destruct Hk as [->|Hk]; [tauto|]. rewrite IH; auto.
  Qed.

  Lemma zsum_map_add : forall (f g : Z -> Z) l,
    zsum (map (fun n => f n + g n) l) = zsum (map f l) + zsum (map g l).
  Proof. induction l; cbn [map]; auto. rewrite !zsum_cons, IHl. lia. Qed.

  Lemma cnt_total : forall coords, Forall (fun c => is_rank lat (node_rank lat c)) coords ->
    zsum (map (cnt coords) ranks) = Z.of_nat (length coords).
  Proof.
    intros coords. induction coords as [|c coords IH] using rev_ind; intros Hr.
    - clear. unfold cnt. cbn [on_rank filter length]. generalize ranks. intros l.
      induction l as [|x l IH]; [reflexivity|]. cbn [map]. rewrite zsum_cons, IH. auto.
    - apply Forall_app in Hr. destruct Hr as [Hr Hc]. inversion Hc; subst.
      rewrite app_length. cbn [length]. rewrite Nat2Z.inj_add, <- IH by auto.
      rewrite map_ext with (g := fun n => cnt coords n + if node_rank lat c =? n then 1 else 0)
        by (intros; apply cnt_snoc).
      rewrite zsum_map_add, zsum_one; auto. apply zrange_NoDup. apply zrange_In. unfold is_rank in H1. lia.
  Qed.

  Lemma cnt_active_total : forall coords root, Forall (fun c => is_rank lat (node_rank lat c)) coords ->
    is_rank lat root ->
    zsum (map (cnt coords) (filter (active coords root) ranks)) = Z.of_nat (length coords) - cnt coords root.
  Proof.
    intros coords root Hc Hroot. rewrite <- (cnt_total coords Hc).
    assert (H : forall l, NoDup l -> zsum (map (cnt coords) l) =
       zsum (map (cnt coords) (filter (active coords root) l)) +
       (if in_dec Z.eq_dec root l then cnt coords root else 0)).
    { induction l as [|x l IH]; intros Hnd; [reflexivity|]. inversion Hnd; subst.
      cbn [map filter]. rewrite zsum_cons, IH by auto. unfold active at 2.
      assert (0 <= cnt coords x) by (unfold cnt; lia).
      destruct (Z.eqb_spec x root) as [->|Hn].
      - rewrite andb_false_r. destruct (in_dec Z.eq_dec root l); [tauto|].
        destruct (in_dec Z.eq_dec root (root :: l)) as [|n']; [lia|]. elim n'. simpl. auto.
      - rewrite andb_true_r.
        destruct (in_dec Z.eq_dec root l) as [i|i]; destruct (in_dec Z.eq_dec root (x :: l)) as [j|j];
          try (exfalso; simpl in j; tauto);
          (destruct (Z.ltb_spec 0 (cnt coords x)); cbn [map]; [rewrite zsum_cons|]; lia). }
    rewrite (H ranks) by apply zrange_NoDup.
    destruct (in_dec Z.eq_dec root ranks) as [|n]; [lia|].
    elim n. apply zrange_In. unfold is_rank in Hroot. lia.
  Qed.
End Scan.

(** ** Receiving and reordering *)
Section Gather.
  Context {V : Type}.
  Variable lat : lattice.
  Variables (root : Z) (coords : list (list Z)) (val : list Z -> V).
  Local Notation cnt := (cnt lat coords).
  Local Notation act := (active lat coords root).

  Definition sub (n : Z) : list V := map val (on_rank lat n coords).

  Lemma sub_length : forall n, Z.of_nat (length (sub n)) = cnt n.
  Proof. intros. unfold sub, ElementProofs1.cnt. rewrite map_length. auto. Qed.

  Lemma recv_ok : forall pbsize nr msg,
    (forall n, act n = true -> msg n = Some (sub n)) ->
    forall ns s, NoDup ns ->
    nreqs s + Z.of_nat (length (filter act ns)) <= nr ->
    Z.of_nat (length (pb s)) + zsum (map cnt (filter act ns)) <= pbsize ->
    exists s', fold_left (recv_step pbsize nr root cnt msg) ns (Some s) = Some s' /\
      (exists tl, pb s' = pb s ++ tl) /\
      (forall n, In n ns -> act n = true ->
         exists p, nptr s' n = Some p /\ 0 <= p /\
           forall k v, nth_error (sub n) k = Some v -> nth_error (pb s') (Z.to_nat p + k) = Some v) /\
      (In root ns -> 0 < cnt root -> nptr s' root = Some 0) /\
      (forall n, ~ In n ns -> nptr s' n = nptr s n).
  Proof.
    intros pbsize nr msg Hmsg. induction ns as [|n ns IH]; intros s Hnd Hq Hp; cbn [fold_left].
    - exists s. split; auto. split; [exists []; rewrite app_nil_r; auto|].
      split; [intros n []|]. split; [intros []|auto].
    - inversion Hnd; subst. unfold recv_step at 2. destruct (0 <? cnt n) eqn:E0.
      + destruct (Z.eqb_spec n root) as [->|Hr].
        * destruct (IH (mkRecv (pb s) (zupd (nptr s) root (Some 0)) (nreqs s))) as (s' & A1 & A2 & A3 & A4 & A5); auto.
          { cbn [nreqs]. cbn [filter] in Hq. unfold active in Hq at 1. rewrite Z.eqb_refl, andb_false_r in Hq. auto. }
          { cbn [pb]. cbn [filter] in Hp. unfold active in Hp at 1. rewrite Z.eqb_refl, andb_false_r in Hp. auto. }
          exists s'. split; auto. split; auto. split; [|split].
          -- intros m [<-|Hm] Ha; [|auto]. unfold active in Ha. rewrite Z.eqb_refl, andb_false_r in Ha. discriminate.
          -- intros _ _. rewrite A5 by auto. apply zupd_same.
          -- intros m Hm. rewrite A5 by (simpl in Hm; tauto). apply zupd_other. simpl in Hm. intuition.
        * assert (Ha : act n = true) by (unfold active; rewrite E0; destruct (Z.eqb_spec n root); [tauto|auto]).
          rewrite (Hmsg n Ha). rewrite sub_length, Z.eqb_refl. cbn [filter] in Hq, Hp. rewrite Ha in Hq, Hp.
          cbn [length map] in Hq, Hp. rewrite zsum_cons in Hp.
          assert (0 <= zsum (map cnt (filter act ns))).
          { clear. induction (filter act ns); [cbn; lia|]. cbn [map]. rewrite zsum_cons.
            unfold ElementProofs1.cnt at 1. lia. }
          replace (nreqs s <? nr) with true by lia.
          replace (Z.of_nat (length (pb s)) + cnt n <=? pbsize) with true by lia. cbn [andb].
          destruct (IH (mkRecv (pb s ++ sub n) (zupd (nptr s) n (Some (Z.of_nat (length (pb s))))) (nreqs s + 1)))
            as (s' & A1 & (tl & A2) & A3 & A4 & A5); auto.
          { cbn [nreqs]. lia. }
          { cbn [pb]. rewrite app_length, Nat2Z.inj_add, sub_length. lia. }
          exists s'. split; auto. cbn [pb nptr] in *. split; [exists (sub n ++ tl); rewrite A2, app_assoc; auto|].
          split; [|split].
          -- intros m [<-|Hm] Hact; [|auto]. exists (Z.of_nat (length (pb s))).
             rewrite A5 by auto. rewrite zupd_same. split; auto. split; [lia|].
             intros k v Hk. rewrite A2, Nat2Z.id, <- app_assoc, nth_error_app2 by lia.
             replace (length (pb s) + k - length (pb s))%nat with k by lia.
             rewrite nth_error_app1; auto. apply nth_error_Some. congruence.
          -- intros [->|Hi]; [tauto|auto].
          -- intros m Hm. rewrite A5 by (simpl in Hm; tauto). apply zupd_other. simpl in Hm. intuition.
      + destruct (IH s) as (s' & A1 & A2 & A3 & A4 & A5); auto.
        { cbn [filter] in Hq. unfold active in Hq at 1. rewrite E0 in Hq. auto. }
        { cbn [filter] in Hp. unfold active in Hp at 1. rewrite E0 in Hp. auto. }
        exists s'. split; auto. split; auto. split; [|split].
        * intros m [<-|Hm] Ha; [|auto]. unfold active in Ha. rewrite E0 in Ha. discriminate.
        * intros [->|Hi]; [lia|auto].
        * intros m Hm. apply A5. simpl in Hm. tauto.
  Qed.

  Lemma reorder_ok : forall own pbuf cs ptr,
    (forall c, In c cs -> exists p, ptr (node_rank lat c) = Some p /\ 0 <= p /\
       forall k c', nth_error (on_rank lat (node_rank lat c) cs) k = Some c' ->
         nth_error (if node_rank lat c =? root then own else pbuf) (Z.to_nat p + k) = Some (val c')) ->
    reorder root own pbuf ptr (map (node_rank lat) cs) = Some (map val cs).
  Proof.
    intros own pbuf. induction cs as [|c cs IH]; intros ptr H; cbn [map reorder]; auto.
    destruct (H c (or_introl eq_refl)) as (p & Hp & Hp0 & Hn). rewrite Hp.
    assert (E := Hn 0%nat c). rewrite Nat.add_0_r in E.
    rewrite E by (unfold on_rank; cbn [filter]; rewrite Z.eqb_refl; reflexivity).
    rewrite IH; auto. intros x Hx. destruct (H x (or_intror Hx)) as (q & Hq & Hq0 & Hqn).
    destruct (Z.eq_dec (node_rank lat x) (node_rank lat c)) as [Ex|Ex].
    - rewrite Ex in *. rewrite zupd_same. exists (p + 1). split; auto. split; [lia|].
      intros k c' Hk. replace (Z.to_nat (p + 1) + k)%nat with (Z.to_nat p + S k)%nat by lia.
      apply Hn. unfold on_rank. cbn [filter]. rewrite Z.eqb_refl. exact Hk.
    - rewrite zupd_other by auto. exists q. split; auto. split; auto. intros k c' Hk. apply Hqn.
      unfold on_rank. cbn [filter]. destruct (Z.eqb_spec (node_rank lat c) (node_rank lat x)); [congruence|exact Hk].
  Qed.
End Gather.

Lemma sites_ranks : forall lat coords, valid_lattice lat -> Forall (is_site (l_size lat)) coords ->
  Forall (fun c => is_rank lat (node_rank lat c)) coords.
Proof.
  intros lat coords Hv H. eapply Forall_impl; [|exact H]. intros c Hc. apply owner_holds; auto.
Qed.

Lemma rank_values : forall (V : Type) lat (st : rank_store V) F r coords, valid_lattice lat ->
  represents lat st F -> is_rank lat r -> Forall (is_site (l_size lat)) coords ->
  map (st r) (map (site_index (nodeinfo lat r)) (on_rank lat r coords)) = map F (on_rank lat r coords).
Proof.
  intros V lat st F r coords Hv HF Hr Hc. rewrite map_map. apply map_ext_In. intros c Hin.
  apply filter_In in Hin. destruct Hin as [Hin E]. apply Z.eqb_eq in E. apply HF; auto.
  rewrite Forall_forall in Hc. destruct (owner_holds lat c Hv (Hc c Hin)). congruence.
Qed.

Lemma gather_elements_ok : forall (V : Type) lat (st : rank_store V) F root coords,
  valid_lattice lat -> represents lat st F -> is_rank lat root ->
  Forall (is_site (l_size lat)) coords ->
  gather_elements lat root coords st = Some (map F coords).
Proof.
  intros V lat st F root coords Hv HF Hroot Hc. assert (Hr := sites_ranks lat coords Hv Hc).
  unfold gather_elements. destruct (scan_ok lat root root coords Hr) as (S1 & S2 & S3 & S4).
  cbv zeta. rewrite S1, S2, S3, S4.
  assert (Hmsg : forall n, active lat coords root n = true ->
      gather_message lat root coords st n = Some (sub lat coords F n)).
  { intros n Hn. unfold gather_message. destruct (scan_ok lat n root coords Hr) as (T1 & T2 & _ & _).
    cbv zeta. rewrite T1, T2. unfold active in Hn. apply andb_true_iff in Hn. destruct Hn as [Hn1 Hn2].
    rewrite Hn1, Hn2. cbn [andb]. unfold sub. f_equal. apply rank_values; auto.
    assert (X : exists c, In c (on_rank lat n coords)).
    { unfold cnt in Hn1. destruct (on_rank lat n coords) as [|c l]; [cbn in Hn1; lia|exists c; simpl; auto]. }
    destruct X as [c X]. apply filter_In in X. destruct X as [X1 X2]. apply Z.eqb_eq in X2. subst n.
    rewrite Forall_forall in Hr. auto. }
  assert (Hext : forall ns s, fold_left (recv_step (Z.of_nat (length coords) - cnt lat coords root)
      (Z.of_nat (length (filter (active lat coords root) (ranks lat)))) root
      (sites_on_rank (run_scan lat root root coords)) (gather_message lat root coords st)) ns s =
    fold_left (recv_step (Z.of_nat (length coords) - cnt lat coords root)
      (Z.of_nat (length (filter (active lat coords root) (ranks lat)))) root
      (cnt lat coords) (gather_message lat root coords st)) ns s).
  { induction ns; intros s; cbn [fold_left]; auto. rewrite IHns. f_equal.
    unfold recv_step. rewrite S2. auto. }
  rewrite Hext.
  destruct (recv_ok lat root coords F (Z.of_nat (length coords) - cnt lat coords root)
      (Z.of_nat (length (filter (active lat coords root) (ranks lat))))
      (gather_message lat root coords st) Hmsg (ranks lat) (mkRecv [] (fun _ => None) 0))
    as (s' & A1 & A2 & A3 & A4 & A5).
  - apply zrange_NoDup.
  - cbn [nreqs]. lia.
  - cbn [pb length]. rewrite cnt_active_total by auto. lia.
  - fold (ranks lat). rewrite A1. apply reorder_ok. intros c Hin.
    assert (Hn : In (node_rank lat c) (ranks lat)).
    { apply zrange_In. rewrite Forall_forall in Hr. specialize (Hr c Hin). unfold is_rank in Hr. lia. }
    assert (Hp : 0 < cnt lat coords (node_rank lat c)).
    { unfold cnt. destruct (on_rank lat (node_rank lat c) coords) eqn:E; [|cbn [length]; lia].
      assert (X : In c (on_rank lat (node_rank lat c) coords)) by (apply filter_In; split; auto; apply Z.eqb_refl).
      rewrite E in X. destruct X. }
    destruct (Z.eqb_spec (node_rank lat c) root) as [E|E].
    + exists 0. rewrite E in *. split; auto. split; [lia|]. intros k c' Hk. change (Z.to_nat 0 + k)%nat with k.
      rewrite (rank_values V lat st F root coords) by auto. apply map_nth_error. auto.
    + destruct (A3 (node_rank lat c) Hn) as (p & P1 & P2 & P3).
      { unfold active. apply andb_true_iff. split; [lia|]. destruct (Z.eqb_spec (node_rank lat c) root); [tauto|auto]. }
      exists p. split; auto. split; auto. intros k c' Hk. apply P3. unfold sub. apply map_nth_error. auto.
Qed.
