(** C14: scatter_elements, set_elements, get_elements. *)
From Verif Require Import Common LayoutModel LayoutSpec LayoutProofs1 LayoutProofs2.
From Verif Require Import ElementModel ElementSpec ElementProofs1.

(** ** Prefix sums *)
Lemma nloc_ok : forall (cnt : Z -> Z), (forall n, 0 <= cnt n) -> forall ns start t, NoDup ns ->
  let T := nloc_table cnt ns start t in
  (forall n, ~ In n ns -> T n = t n) /\
  (forall n, In n ns -> start <= T n /\ T n + cnt n <= start + zsum (map cnt ns)) /\
  (forall n m, In n ns -> In m ns -> n <> m -> T n + cnt n <= T m \/ T m + cnt m <= T n).
Proof.
  intros cnt Hc. induction ns as [|x ns IH]; intros start t Hnd; cbn [nloc_table].
  - split; auto. split; [intros n []|intros n m []].
  - inversion Hnd; subst. destruct (IH (start + cnt x) (zupd t x start) H2) as (A & B & C).
    assert (Hx : nloc_table cnt ns (start + cnt x) (zupd t x start) x = start).
    { rewrite A by auto. apply zupd_same. }
    assert (Hs : 0 <= zsum (map cnt ns)).
    { clear - Hc. induction ns; [cbn; lia|]. cbn [map]. rewrite zsum_cons. specialize (Hc a). lia. }
    cbn [map]. rewrite zsum_cons. split; [|split].
    + intros n Hn. rewrite A by (simpl in Hn; tauto). apply zupd_other. simpl in Hn. intuition.
    + intros n [<-|Hn].
      * cbv zeta. rewrite Hx. lia.
      * cbv zeta. specialize (B n Hn). specialize (Hc x). lia.
    + intros n m [<-|Hn] [<-|Hm] Hne; cbv zeta; try tauto.
      * rewrite Hx. specialize (B m Hm). lia.
      * rewrite Hx. specialize (B n Hn). lia.
      * apply C; auto.
Qed.

Section Scatter.
  Context {V : Type}.

  (** Values destined to rank [n]. *)
  Definition part (n : Z) (items : list (Z * V)) : list V :=
    map snd (filter (fun it => fst it =? n) items).

  Lemma fill_pb_ok : forall size nloc cap (okr : Z -> Prop),
    (forall n, okr n -> 0 <= nloc n /\ nloc n + cap n <= size) ->
    (forall n m, okr n -> okr m -> n <> m -> nloc n + cap n <= nloc m \/ nloc m + cap m <= nloc n) ->
    forall items nc p,
    (forall it, In it items -> okr (fst it)) ->
    (forall n, okr n -> 0 <= nc n /\ nc n + Z.of_nat (length (part n items)) <= cap n) ->
    exists p', fill_pb size nloc nc (map fst items) (map snd items) p = Some p' /\
      (forall n k v, okr n -> nth_error (part n items) k = Some v ->
         p' (nloc n + nc n + Z.of_nat k) = Some v) /\
      (forall j, (forall n, okr n -> ~ (nloc n + nc n <= j < nloc n + cap n)) -> p' j = p j).
  Proof.
    intros size nloc cap okr Hb Hd. induction items as [|[r v] items IH]; intros nc p Hok Hnc; cbn [map fill_pb].
    - exists p. split; auto. split; auto. intros n k v _ H. destruct k; discriminate.
    - cbn [fst snd]. assert (Hr : okr r) by (apply (Hok (r, v)); simpl; auto).
      destruct (Hb r Hr) as [B1 B2]. destruct (Hnc r Hr) as [C1 C2].
      unfold part in C2. cbn [filter fst] in C2. rewrite Z.eqb_refl in C2. cbn [map length] in C2.
      replace ((0 <=? nloc r + nc r) && (nloc r + nc r <? size)) with true by lia.
      destruct (IH (zupd nc r (nc r + 1)) (zupd p (nloc r + nc r) (Some v))) as (p' & P1 & P2 & P3).
      + intros it Hit. apply Hok. simpl. auto.
      + intros n Hn. destruct (Z.eq_dec n r) as [->|Hne].
        * rewrite zupd_same. unfold part. lia.
        * rewrite zupd_other by auto. specialize (Hnc n Hn). unfold part in *. cbn [filter fst] in Hnc.
          destruct (Z.eqb_spec r n); [congruence|auto].
      + exists p'. split; auto.
        assert (Hkeep : p' (nloc r + nc r) = Some v).
        { rewrite P3; [apply zupd_same|]. intros n Hn Hj. destruct (Z.eq_dec n r) as [->|Hne].
          - rewrite zupd_same in Hj. lia.
          - rewrite zupd_other in Hj by auto. specialize (Hd n r Hn Hr Hne). specialize (Hnc n Hn). lia. }
        split.
        * intros n k w Hn Hk. unfold part in Hk. cbn [filter fst] in Hk.
          destruct (Z.eqb_spec r n) as [<-|Hne].
          -- destruct k as [|k]; cbn [map nth_error] in Hk.
             ++ inversion Hk; subst. rewrite Z.add_0_r. auto.
             ++ specialize (P2 r k w Hn Hk). rewrite zupd_same in P2.
                replace (nloc r + nc r + Z.of_nat (S k)) with (nloc r + (nc r + 1) + Z.of_nat k) by lia. auto.
          -- specialize (P2 n k w Hn Hk). rewrite zupd_other in P2 by auto. auto.
        * intros j Hj. rewrite P3.
          -- apply zupd_other. intros ->. apply (Hj r Hr). lia.
          -- intros n Hn Hjn. apply (Hj n Hn). destruct (Z.eq_dec n r) as [->|Hne].
             ++ rewrite zupd_same in Hjn. lia.
             ++ rewrite zupd_other in Hjn by auto. auto.
  Qed.

  Lemma read_block_ok : forall (p : Z -> option V) l start,
    (forall k v, nth_error l k = Some v -> p (start + Z.of_nat k) = Some v) ->
    read_block p start (length l) = Some l.
  Proof.
    intros p. induction l as [|v l IH]; intros start H; cbn [length read_block]; auto.
    assert (E := H 0%nat v eq_refl). rewrite Z.add_0_r in E. rewrite E. rewrite IH; auto.
    intros k w Hk. replace (start + 1 + Z.of_nat k) with (start + Z.of_nat (S k)) by lia. apply H. auto.
  Qed.

  Variable lat : lattice.
  Hypothesis Hv : valid_lattice lat.

  Definition mem_represents (r : Z) (mem : Z -> V) (F : list Z -> V) : Prop :=
    forall c, holds lat r c -> mem (site_index (nodeinfo lat r) c) = F c.

  Lemma place_ok : forall r, is_rank lat r -> forall l mem F, mem_represents r mem F ->
    Forall (fun it => holds lat r (fst it)) l ->
    exists mem', place_elements (map (fun it => site_index (nodeinfo lat r) (fst it)) l) (map snd l) mem = Some mem' /\
      mem_represents r mem' (put_list F l) /\
      (forall i, (forall c, holds lat r c -> site_index (nodeinfo lat r) c <> i) -> mem' i = mem i).
  Proof.
    intros r Hr. destruct (site_index_bijection lat r Hv Hr) as (_ & Hinj & _).
    induction l as [|[c v] l IH]; intros mem F Hm Hl; cbn [map place_elements put_list].
    - exists mem. auto.
    - inversion Hl; subst. cbn [fst snd] in *.
      destruct (IH (zupd mem (site_index (nodeinfo lat r) c) v) (put F c v)) as (mem' & A & B & C); auto.
      + intros x Hx. destruct (site_eq_dec x c) as [->|Hne].
        * rewrite zupd_same, put_same. auto.
        * rewrite zupd_other, put_other by auto. auto.
      + exists mem'. split; auto. split; auto. intros i Hi. rewrite C by auto. apply zupd_other.
        intros ->. apply (Hi c); auto.
  Qed.

  (** A rank only needs the pairs of its own sites. *)
  Lemma put_list_own : forall (own : list Z -> bool) l (F G : list Z -> V) x, own x = true -> F x = G x ->
    put_list F (filter (fun it => own (fst it)) l) x = put_list G l x.
  Proof.
    intros own. induction l as [|[c v] l IH]; intros F G x Hx HF; cbn [filter put_list]; auto.
    cbn [fst]. destruct (own c) eqn:E; cbn [put_list]; apply IH; auto.
    - unfold put. destruct (site_eq_dec x c); auto.
    - rewrite put_other; auto. intros ->. congruence.
  Qed.

  Definition pairs (coords : list (list Z)) (vs : list V) : list (list Z * V) := combine coords vs.

  Lemma map_fst_pairs : forall (coords : list (list Z)) (vs : list V), length coords = length vs ->
    map fst (combine coords vs) = coords.
  Proof. induction coords; destruct vs; cbn; intros; try discriminate; auto. f_equal. auto. Qed.
  Lemma map_snd_pairs : forall (coords : list (list Z)) (vs : list V), length coords = length vs ->
    map snd (combine coords vs) = vs.
  Proof. induction coords; destruct vs; cbn; intros; try discriminate; auto. f_equal. auto. Qed.

  Lemma filter_map_fst : forall (q : list Z -> bool) (l : list (list Z * V)),
    filter q (map fst l) = map fst (filter (fun it => q (fst it)) l).
  Proof. induction l as [|[c v] l IH]; cbn; auto. destruct (q c); cbn; rewrite IH; auto. Qed.

  Lemma part_pairs : forall n (l : list (list Z * V)),
    part n (map (fun it => (node_rank lat (fst it), snd it)) l) =
    map snd (filter (fun it => node_rank lat (fst it) =? n) l).
  Proof.
    intros n. unfold part. induction l as [|[c v] l IH]; cbn [map filter fst snd]; auto.
    destruct (node_rank lat c =? n); cbn [map snd]; rewrite IH; auto.
  Qed.

  Lemma scatter_rank_ok : forall root l (st : rank_store V) F r,
    represents lat st F -> is_rank lat root -> is_rank lat r ->
    Forall (is_site (l_size lat)) (map fst l) ->
    exists mem, scatter_elements lat root (map fst l) (map snd l) st r = Some mem /\
      mem_represents r mem (put_list F l) /\
      (forall i, (forall c, holds lat r c -> site_index (nodeinfo lat r) c <> i) -> mem i = st r i).
  Proof.
    intros root l st F r HF Hroot Hr Hs. assert (Hrk := sites_ranks lat _ Hv Hs).
    unfold scatter_elements.
    destruct (scan_ok lat r root (map fst l) Hrk) as (S1 & S2 & _ & _).
    destruct (scan_ok lat root root (map fst l) Hrk) as (T1 & T2 & _ & T4).
    cbv zeta. rewrite S1, !S2, !T2, T4.
    assert (Hext : forall ns a t, nloc_table (sites_on_rank (run_scan lat root root (map fst l))) ns a t =
                                  nloc_table (cnt lat (map fst l)) ns a t).
    { induction ns; intros; cbn [nloc_table]; auto. rewrite T2. auto. }
    rewrite Hext. fold (ranks lat).
    set (items := map (fun it : list Z * V => (node_rank lat (fst it), snd it)) l).
    assert (E1 : map (node_rank lat) (map fst l) = map fst items).
    { unfold items. rewrite !map_map. auto. }
    assert (E2 : map snd l = map snd items).
    { unfold items. rewrite !map_map. auto. }
    rewrite E1, E2.
    destruct (nloc_ok (cnt lat (map fst l)) (fun n => Zle_0_nat _) (ranks lat) 0 (fun _ => 0) (zrange_NoDup _ _))
      as (N1 & N2 & N3).
    assert (Htot := cnt_total lat (map fst l) Hrk).
    assert (Hcap : forall n, Z.of_nat (length (part n items)) = cnt lat (map fst l) n).
    { intros n. unfold items. rewrite part_pairs, map_length. unfold cnt, on_rank.
      rewrite filter_map_fst, map_length. auto. }
    destruct (fill_pb_ok (Z.of_nat (length (map fst l))) (nloc_table (cnt lat (map fst l)) (ranks lat) 0 (fun _ => 0))
       (cnt lat (map fst l)) (fun n => In n (ranks lat))) with (items := items) (nc := fun _ : Z => 0)
       (p := fun _ : Z => @None V) as (p' & P1 & P2 & P3).
    - intros n Hn. specialize (N2 n Hn). cbv zeta in N2. lia.
    - exact N3.
    - intros it Hit. unfold items in Hit. apply in_map_iff in Hit. destruct Hit as ([c v] & <- & Hin). cbn [fst].
      apply zrange_In. rewrite Forall_forall in Hrk. specialize (Hrk c). unfold is_rank in Hrk.
      assert (In c (map fst l)) by (apply in_map_iff; exists (c, v); auto). specialize (Hrk H). lia.
    - intros n Hn. rewrite Hcap. lia.
    - rewrite P1.
      assert (Hin : In r (ranks lat)) by (apply zrange_In; unfold is_rank in Hr; lia).
      set (mine := filter (fun it => node_rank lat (fst it) =? r) l).
      assert (Hm : part r items = map snd mine) by apply part_pairs.
      assert (Hi : on_rank lat r (map fst l) = map fst mine) by apply filter_map_fst.
      assert (Hown : Forall (fun it => holds lat r (fst it)) mine).
      { apply Forall_forall. intros it Hit. apply filter_In in Hit. destruct Hit as [Hl E]. apply Z.eqb_eq in E.
        rewrite Forall_forall in Hs. specialize (Hs (fst it) (in_map fst _ _ Hl)).
        destruct (owner_holds lat (fst it) Hv Hs). congruence. }
      assert (Heq : forall x, holds lat r x -> put_list F mine x = put_list F l x).
      { intros x Hx. unfold mine. apply (put_list_own (fun c => node_rank lat c =? r)); auto.
        assert (Hsx := holds_is_site lat r x Hv Hr Hx).
        rewrite <- (on_node_owner lat r x Hv Hr Hsx). apply holds_on_node. auto. }
      destruct (0 <? cnt lat (map fst l) r) eqn:E0.
      + rewrite <- Hcap, Nat2Z.id. rewrite read_block_ok.
        * rewrite Hi, map_map, Hm.
          destruct (place_ok r Hr mine (st r) F) as (mem & M1 & M2 & M3); auto.
          { intros c Hc. apply HF; auto. }
          exists mem. split; auto. split; auto. intros c Hc. rewrite M2, Heq; auto.
        * intros k v Hk. specialize (P2 r k v Hin Hk). rewrite Z.add_0_r in P2. auto.
      + exists (st r). split; auto. split; auto. intros c Hc. rewrite <- Heq by auto.
        assert (mine = []) as ->.
        { destruct mine as [|it q] eqn:Em; auto. unfold cnt in E0. rewrite Hi in E0. cbn [map length] in E0. lia. }
        cbn [put_list]. apply HF; auto.
  Qed.

  Definition collect (res : Z -> option (Z -> V)) (st : rank_store V) : rank_store V :=
    fun r => match res r with Some m => m | None => st r end.

  Lemma scatter_ok : forall root coords vs (st : rank_store V) F,
    represents lat st F -> is_rank lat root -> Forall (is_site (l_size lat)) coords ->
    length coords = length vs ->
    exists st' : rank_store V,
      (forall r, is_rank lat r -> scatter_elements lat root coords vs st r = Some (st' r)) /\
      represents lat st' (put_list F (combine coords vs)).
  Proof.
    intros root coords vs st F HF Hroot Hs Hl.
    exists (collect (scatter_elements lat root coords vs st) st).
    assert (H : forall r, is_rank lat r -> exists mem,
       scatter_elements lat root coords vs st r = Some mem /\
       mem_represents r mem (put_list F (combine coords vs))).
    { intros r Hr. destruct (scatter_rank_ok root (combine coords vs) st F r HF Hroot Hr) as (mem & A & B & _).
      - rewrite map_fst_pairs by auto. auto.
      - rewrite map_fst_pairs, map_snd_pairs in A by auto. eauto. }
    split.
    - intros r Hr. destruct (H r Hr) as (mem & A & _). unfold collect. rewrite A. auto.
    - intros r c Hr Hc. destruct (H r Hr) as (mem & A & B). unfold collect. rewrite A. apply B; auto.
  Qed.

  Lemma my_part_ok : forall r l,
    my_part lat r (map fst l) (map snd l) =
    Some (map (fun it => site_index (nodeinfo lat r) (fst it)) (filter (fun it => is_on_node (nodeinfo lat r) (fst it)) l),
          map snd (filter (fun it : list Z * V => is_on_node (nodeinfo lat r) (fst it)) l)).
  Proof.
    intros r. induction l as [|[c v] l IH]; cbn [map my_part filter fst snd]; auto.
    rewrite IH. destruct (is_on_node (nodeinfo lat r) c); auto.
  Qed.

  Lemma set_elements_ok : forall coords vs (st : rank_store V) F,
    represents lat st F -> length coords = length vs ->
    exists st' : rank_store V,
      (forall r, is_rank lat r -> set_elements lat coords vs st r = Some (st' r)) /\
      represents lat st' (put_list F (combine coords vs)).
  Proof.
    intros coords vs st F HF Hl.
    exists (collect (set_elements lat coords vs st) st).
    assert (H : forall r, is_rank lat r -> exists mem,
       set_elements lat coords vs st r = Some mem /\
       mem_represents r mem (put_list F (combine coords vs))).
    { intros r Hr. unfold set_elements. assert (M := my_part_ok r (combine coords vs)).
      rewrite map_fst_pairs, map_snd_pairs in M by auto. rewrite M.
      destruct (place_ok r Hr (filter (fun it => is_on_node (nodeinfo lat r) (fst it)) (combine coords vs)) (st r) F)
        as (mem & A & B & _).
      - intros c Hc. apply HF; auto.
      - apply Forall_forall. intros it Hit. apply filter_In in Hit. apply holds_on_node. tauto.
      - exists mem. split; auto. intros c Hc. rewrite B by auto.
        apply (put_list_own (is_on_node (nodeinfo lat r))); auto. apply holds_on_node. auto. }
    split.
    - intros r Hr. destruct (H r Hr) as (mem & A & _). unfold collect. rewrite A. auto.
    - intros r c Hr Hc. destruct (H r Hr) as (mem & A & B). unfold collect. rewrite A. apply B; auto.
  Qed.

  (** What [put_list] means. *)
  Lemma put_list_outside : forall l (F : list Z -> V) x, ~ In x (map fst l) -> put_list F l x = F x.
  Proof.
    induction l as [|[c v] l IH]; intros F x H; cbn [put_list]; auto. cbn [map fst] in H.
    rewrite IH by (simpl in H; tauto). apply put_other. simpl in H. intuition.
  Qed.

  Lemma put_list_last : forall a c v b (F : list Z -> V), ~ In c (map fst b) ->
    put_list F (a ++ (c, v) :: b) c = v.
  Proof.
    induction a as [|[d w] a IH]; intros c v b F H; cbn [app put_list].
    - rewrite put_list_outside by auto. apply put_same.
    - apply IH. auto.
  Qed.

  Lemma put_list_in : forall l (F : list Z -> V) c v, NoDup (map fst l) -> In (c, v) l -> put_list F l c = v.
  Proof.
    intros l F c v Hnd Hin. apply in_split in Hin. destruct Hin as (a & b & ->).
    apply put_list_last. rewrite map_app in Hnd. clear - Hnd.
    induction (map fst a) as [|y m IH]; cbn [app map fst] in Hnd; inversion Hnd; auto.
  Qed.

  (** All values consistent with one function [G]. *)
  Lemma put_list_consistent : forall l (F G : list Z -> V), (forall c v, In (c, v) l -> v = G c) ->
    forall x, (In x (map fst l) -> put_list F l x = G x) /\ (~ In x (map fst l) -> put_list F l x = F x).
  Proof.
    intros l F G H x. split; [|apply put_list_outside]. revert F.
    induction l as [|[c v] l IH]; intros F Hx; cbn [put_list]; [destruct Hx|].
    destruct (in_dec site_eq_dec x (map fst l)) as [Hi|Hi].
    - apply IH; auto. intros. apply H. simpl. auto.
    - destruct Hx as [Hx|Hx]; [|tauto]. cbn [fst] in Hx. subst x. rewrite put_list_outside by auto.
      rewrite put_same. apply H. simpl. auto.
  Qed.

  Lemma put_list_gather : forall coords vs (F : list Z -> V), length coords = length vs -> NoDup coords ->
    map (put_list F (combine coords vs)) coords = vs.
  Proof.
    intros coords vs F Hl Hnd.
    rewrite <- (map_snd_pairs coords vs Hl) at 2. rewrite <- (map_fst_pairs coords vs Hl) at 2.
    rewrite map_map. apply map_ext_In. intros [c v] Hin. cbn [fst snd].
    apply put_list_in; auto. rewrite map_fst_pairs by auto. auto.
  Qed.
End Scatter.
