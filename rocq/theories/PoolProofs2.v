(** Proofs about the memory pool: every call keeps the invariant. *)
From Verif Require Import Common LayoutProofs1 PoolModel PoolSpec PoolProofs1.

Lemma live_block : forall p v l, pool_inv p v -> In l (v_live v) ->
  exists b, In b (pl_blocks p) /\ b_ptr b = fst l /\ snd l <= b_size b.
Proof. intros p v l Hi. apply (i_live p v Hi). Qed.

Lemma blocks_nodup : forall p v, pool_inv p v -> NoDup (map b_ptr (pl_blocks p)).
Proof. intros p v Hi. apply disj_nodup; [rewrite <- (i_held p v Hi); apply Hi|apply Hi]. Qed.

(** A request is disjoint from all live allocations if it lies in a block that is
    not used by them. *)
Lemma free_block_disjoint : forall p v b req, pool_inv p v -> In b (pl_blocks p) -> b_used b = false -> req <= b_size b ->
  forall l, In l (v_live v) -> disjoint l (b_ptr b, req) /\ fst l <> b_ptr b.
Proof.
  intros p v b req Hi Hb Hu Hr l Hl. destruct (live_block p v l Hi Hl) as (c & Hc & Ep & Es).
  assert (Hne : fst l <> b_ptr b).
  { intros E. rewrite (i_used p v Hi b Hb) in Hu.
    assert (X : used_region v (region b) = true) by (apply used_region_In; cbn; rewrite <- E; apply in_map; auto). congruence. }
  split; auto.
  assert (Hd := disj_other (pl_blocks p)). rewrite <- (i_held p v Hi) in Hd.
  specialize (Hd (i_disj p v Hi) c b Hc Hb ltac:(congruence)). unfold disjoint, region in *. cbn in *. lia.
Qed.

Lemma suitable_fits : forall p v req x, pool_inv p v ->
  (suitable v req x <-> exists b, In b (pl_blocks p) /\ region b = x /\ fits (Z.max req 128) b).
Proof.
  intros p v req x Hi. unfold suitable, fits. cbv zeta. rewrite (i_held p v Hi), in_map_iff. split.
  - intros ((b & <- & Hb) & Hu & Hs). exists b. rewrite (i_used p v Hi b Hb). auto.
  - intros (b & Hb & <- & Hu & Hs). rewrite <- (i_used p v Hi b Hb). eauto.
Qed.

Lemma nth_error_skipn' : forall {A} (l : list A) n k, nth_error (skipn n l) k = nth_error l (n + k).
Proof.
  induction l as [|a l IH]; intros [|n] k; cbn [skipn Nat.add nth_error]; auto. destruct k; auto.
Qed.

(** Blocks that fit are in the part of the list that is searched. *)
Lemma fits_after_hint : forall p v b req, pool_inv p v -> In b (pl_blocks p) -> fits req b ->
  exists k, nth_error (skipn (pl_hint p) (pl_blocks p)) k = Some b.
Proof.
  intros p v b req Hi Hb [Hu _]. apply In_nth_error in Hb. destruct Hb as [k Hk].
  exists (k - pl_hint p)%nat. rewrite nth_error_skipn'.
  destruct (Nat.lt_ge_cases k (pl_hint p)) as [Hlt|Hge].
  - rewrite (i_before p v Hi k b Hlt Hk) in Hu. discriminate.
  - replace (pl_hint p + (k - pl_hint p))%nat with k by lia. auto.
Qed.

Lemma alloc_ok : forall addr req p v, pool_inv p v ->
  exists p' r, pool_alloc addr req p = POk p' r /\
    ((forall ptr n, r = Returned ptr (Some n) -> Forall (fun x => disjoint x (ptr, n)) (v_held v)) ->
     right v (PAlloc req) r /\ pool_inv p' (after v (PAlloc req) r)).
Proof.
  intros addr req p v Hi. unfold pool_alloc. rewrite max_if.
  assert (Hh := i_hint p v Hi). replace (length (pl_blocks p) <? pl_hint p)%nat with false by (symmetry; apply Nat.ltb_ge; auto).
  destruct (pool_search (Z.max req 128) (skipn (pl_hint p) (pl_blocks p)) (pl_hint p) None None) as [found ff] eqn:Es.
  assert (S1 := search_found _ _ _ _ _ _ _ Es).
  destruct (search_best _ _ _ _ _ _ _ Es I) as [_ S2].
  assert (S3 := search_first _ _ _ _ _ _ _ Es). cbv beta iota in S3.
  set (ff1 := match ff with Some i => i | None => match found with Some (i, _) => i | None => length (pl_blocks p) end end) in *.
  set (hint := if (pl_hint p <? ff1)%nat then ff1 else pl_hint p) in *.
  (* all blocks before the new hint are in use, and the hint is in range *)
  assert (Hff : (ff1 <= length (pl_blocks p))%nat /\
          forall k b, (k < ff1)%nat -> nth_error (pl_blocks p) k = Some b -> b_used b = true).
  { assert (Hsplit : forall m, (forall k b, (k < m)%nat -> nth_error (skipn (pl_hint p) (pl_blocks p)) k = Some b -> b_used b = true) ->
            forall k b, (k < pl_hint p + m)%nat -> nth_error (pl_blocks p) k = Some b -> b_used b = true).
    { intros m Hm k b Hk Hb. destruct (Nat.lt_ge_cases k (pl_hint p)) as [Hlt|Hge]; [eapply (i_before p v Hi); eauto|].
      apply (Hm (k - pl_hint p)%nat); [lia|]. rewrite nth_error_skipn'.
      replace (pl_hint p + (k - pl_hint p))%nat with k by lia. auto. }
    unfold ff1. destruct ff as [x|].
    - destruct S3 as (k & -> & Hk & Hb). rewrite skipn_length in Hk. split; [lia|]. apply Hsplit. auto.
    - destruct S3 as [-> Hb]. split; auto. intros k b Hk Hn.
      apply (Hsplit (length (pl_blocks p)) (fun k b _ H => Hb k b H) k b); [lia|auto]. }
  assert (Hhint : (hint <= length (pl_blocks p))%nat /\
          forall k b, (k < hint)%nat -> nth_error (pl_blocks p) k = Some b -> b_used b = true).
  { unfold hint. destruct (pl_hint p <? ff1)%nat; auto. split; auto. apply (i_before p v Hi). }
  destruct Hhint as [Hh1 Hh2].
  assert (Hnd := blocks_nodup p v Hi).
  destruct found as [[i s]|].
  - destruct S1 as [S1|(k & b & Hb & Hf & S1)]; [discriminate|]. injection S1 as -> ->.
    rewrite nth_error_skipn' in Hb. set (i := (pl_hint p + k)%nat) in *.
    assert (Enth : nth i (pl_blocks p) (mkBlock 0 0 false) = b) by (apply nth_error_nth; auto).
    rewrite Enth. eexists _, _. split; [reflexivity|]. intros _.
    assert (Hin : In b (pl_blocks p)) by (eapply nth_error_In; eauto).
    assert (Hfit := Hf). destruct Hfit as [Hu Hs].
    assert (Hfree := free_block_disjoint p v b req Hi Hin Hu ltac:(lia)).
    split.
    + cbn [right after v_held]. split; auto. split; [exists (b_size b)|exists (b_size b)].
      * split; [lia|]. rewrite (i_held p v Hi). apply in_map_iff. exists b. auto.
      * split; [apply (suitable_fits p v); eauto|]. intros x Hx.
        apply (suitable_fits p v req x Hi) in Hx. destruct Hx as (c & Hc & <- & Hfc).
        destruct (fits_after_hint p v c _ Hi Hc Hfc) as (k' & Hk'). specialize (S2 k' c Hk' Hfc). cbn in S2. auto.
    + cbn [after]. constructor; cbn [v_held v_live pl_blocks pl_hint pl_total].
      * rewrite set_used_map by reflexivity. apply Hi.
      * apply Hi.
      * apply Forall_forall. intros c Hc. apply In_nth_error in Hc. destruct Hc as [j Hj]. rewrite set_used_nth in Hj.
        destruct (nth_error (pl_blocks p) j) as [c0|] eqn:Ej; [|discriminate]. injection Hj as <-.
        assert (128 <= b_size c0) by (apply (proj1 (Forall_forall _ _) (i_size p v Hi)); eapply nth_error_In; eauto).
        destruct (Nat.eqb j i); auto.
      * intros c Hc. apply In_nth_error in Hc. destruct Hc as [j Hj]. rewrite set_used_nth in Hj.
        destruct (nth_error (pl_blocks p) j) as [c0|] eqn:Ej; [|discriminate]. injection Hj as <-.
        assert (Hc0 : In c0 (pl_blocks p)) by (eapply nth_error_In; eauto).
        unfold used_region. cbn [v_live]. rewrite existsb_app. cbn [existsb]. rewrite orb_false_r.
        destruct (Nat.eqb_spec j i) as [->|Hne].
        -- cbn [b_used region b_ptr fst]. replace c0 with b by congruence. rewrite Z.eqb_refl, orb_true_r. auto.
        -- assert (Hp : b_ptr b <> b_ptr c0) by (intros E; apply Hne; symmetry; eapply (nodup_nth (pl_blocks p)); eauto).
           cbn [region fst]. replace (b_ptr b =? b_ptr c0) with false by (symmetry; apply Z.eqb_neq; auto).
           rewrite orb_false_r. apply (i_used p v Hi c0 Hc0).
      * intros l Hl. apply in_app_or in Hl.
        assert (Hfind : forall c, In c (pl_blocks p) -> exists c', In c' (set_used (pl_blocks p) i true) /\ b_ptr c' = b_ptr c /\ b_size c' = b_size c).
        { intros c Hc. apply In_nth_error in Hc. destruct Hc as [j Hj].
          assert (X := set_used_nth (pl_blocks p) i true j). rewrite Hj in X. apply nth_error_In in X.
          eexists. split; [exact X|]. destruct (Nat.eqb j i); auto. }
        destruct Hl as [Hl|[<-|[]]].
        -- destruct (live_block p v l Hi Hl) as (c & Hc & E1 & E2). destruct (Hfind c Hc) as (c' & H1 & H2 & H3).
           exists c'. split; auto. split; congruence.
        -- destruct (Hfind b Hin) as (c' & H1 & H2 & H3). exists c'. cbn. split; auto. split; auto. lia.
      * rewrite map_app. cbn [map fst]. apply NoDup_app_intro; [apply Hi|repeat constructor; auto|].
        intros y Hy [E|[]]. subst y. apply in_map_iff in Hy. destruct Hy as (l & E & Hl).
        destruct (Hfree l Hl) as [_ Hne]. auto.
      * rewrite set_used_length. auto.
      * intros j c Hj Hc. rewrite set_used_nth in Hc.
        destruct (nth_error (pl_blocks p) j) as [c0|] eqn:Ej; [|discriminate]. injection Hc as <-.
        destruct (Nat.eqb j i); auto. eapply Hh2; eauto.
      * apply Hi.
  - eexists _, _. split; [reflexivity|]. intros Hsys. specialize (Hsys _ _ eq_refl).
    assert (Hnew : forall l, In l (v_live v) -> disjoint l (addr, req) /\ fst l <> addr).
    { intros l Hl. destruct (live_block p v l Hi Hl) as (c & Hc & E1 & E2).
      assert (Hd : disjoint (region c) (addr, Z.max req 128)).
      { apply (proj1 (Forall_forall _ _) Hsys). rewrite (i_held p v Hi). apply in_map. auto. }
      assert (128 <= b_size c) by (apply (proj1 (Forall_forall _ _) (i_size p v Hi)); auto).
      unfold disjoint, region in *. cbn in *. lia. }
    assert (Hnb : forall c, In c (pl_blocks p) -> b_ptr c <> addr).
    { intros c Hc E. assert (Hd : disjoint (region c) (addr, Z.max req 128)).
      { apply (proj1 (Forall_forall _ _) Hsys). rewrite (i_held p v Hi). apply in_map. auto. }
      assert (128 <= b_size c) by (apply (proj1 (Forall_forall _ _) (i_size p v Hi)); auto).
      unfold disjoint, region in *. cbn in *. lia. }
    split.
    + cbn [right after v_held]. split; auto. split.
      * exists (Z.max req 128). split; [lia|]. apply in_or_app. right. simpl; auto.
      * split; auto. intros x Hx. apply (suitable_fits p v req x Hi) in Hx. destruct Hx as (c & Hc & <- & Hfc).
        destruct (fits_after_hint p v c _ Hi Hc Hfc) as (k' & Hk'). exact (S2 k' c Hk' Hfc).
    + cbn [after]. constructor; cbn [v_held v_live pl_blocks pl_hint pl_total].
      * rewrite map_app, <- (i_held p v Hi). reflexivity.
      * apply disj_app; auto. apply Hi.
      * apply Forall_app. split; [apply Hi|]. repeat constructor. cbn. lia.
      * intros c Hc. unfold used_region. cbn [v_live]. rewrite existsb_app. cbn [existsb]. rewrite orb_false_r.
        apply in_app_or in Hc. destruct Hc as [Hc|[<-|[]]].
        -- cbn [region fst]. replace (addr =? b_ptr c) with false by (symmetry; apply Z.eqb_neq; intros E; apply (Hnb c Hc); auto).
           rewrite orb_false_r. apply (i_used p v Hi c Hc).
        -- cbn [region fst b_ptr b_used]. rewrite Z.eqb_refl, orb_true_r. auto.
      * intros l Hl. apply in_app_or in Hl. destruct Hl as [Hl|[<-|[]]].
        -- destruct (live_block p v l Hi Hl) as (c & Hc & E). exists c. split; auto. apply in_or_app. auto.
        -- eexists. split; [apply in_or_app; right; left; reflexivity|]. cbn. split; auto. lia.
      * rewrite map_app. cbn [map fst]. apply NoDup_app_intro; [apply Hi|repeat constructor; auto|].
        intros y Hy [E|[]]. subst y. apply in_map_iff in Hy. destruct Hy as (l & E & Hl).
        destruct (Hnew l Hl) as [_ Hne]. auto.
      * rewrite app_length. lia.
      * intros j c Hj Hc. destruct (Nat.lt_ge_cases j (length (pl_blocks p))) as [Hlt|Hge].
        -- rewrite nth_error_app1 in Hc by auto. eapply Hh2; eauto.
        -- lia.
      * rewrite map_app, (i_total p v Hi). unfold zsum. rewrite fold_right_app. cbn [map fold_right snd].
        rewrite <- (Z.add_0_r (Z.max req 128)) at 1.
        generalize (map snd (v_held v)). induction l as [|a l IHl]; cbn [fold_right]; lia.
Qed.

Lemma free_ok : forall ptr p v, pool_inv p v ->
  match pool_free ptr p with
  | POk p' r => right v (PFree ptr) r /\ pool_inv p' (after v (PFree ptr) r)
  | Terminated => ~ In ptr (map fst (v_live v))
  | OutOfRange => False
  end.
Proof.
  intros ptr p v Hi. unfold pool_free. assert (HF := find_back_spec ptr (pl_blocks p)).
  assert (Hnd := blocks_nodup p v Hi).
  destruct (find_back ptr (rev (pl_blocks p)) (length (pl_blocks p))) as [[i [|]]|].
  - destruct HF as (b & Hb & Ep & Hu). assert (Hin : In b (pl_blocks p)) by (eapply nth_error_In; eauto).
    assert (Hlive : In ptr (map fst (v_live v))).
    { rewrite (i_used p v Hi b Hin) in Hu. apply used_region_In in Hu. cbn in Hu. congruence. }
    split; [exact Hlive|]. cbn [after]. constructor; cbn [v_held v_live pl_blocks pl_hint pl_total].
    + rewrite set_used_map by reflexivity. apply Hi.
    + apply Hi.
    + apply Forall_forall. intros c Hc. apply In_nth_error in Hc. destruct Hc as [j Hj]. rewrite set_used_nth in Hj.
      destruct (nth_error (pl_blocks p) j) as [c0|] eqn:Ej; [|discriminate]. injection Hj as <-.
      assert (128 <= b_size c0) by (apply (proj1 (Forall_forall _ _) (i_size p v Hi)); eapply nth_error_In; eauto).
      destruct (Nat.eqb j i); auto.
    + intros c Hc. apply In_nth_error in Hc. destruct Hc as [j Hj]. rewrite set_used_nth in Hj.
      destruct (nth_error (pl_blocks p) j) as [c0|] eqn:Ej; [|discriminate]. injection Hj as <-.
      assert (Hc0 : In c0 (pl_blocks p)) by (eapply nth_error_In; eauto).
      destruct (Nat.eqb_spec j i) as [->|Hne].
      * cbn [b_used]. symmetry. unfold used_region. cbn [v_live region b_ptr fst].
        replace c0 with b by congruence. rewrite Ep.
        destruct (existsb _ _) eqn:E; auto. apply existsb_exists in E. destruct E as (l & Hl & E).
        apply filter_In in Hl. destruct Hl as [_ Hl]. rewrite E in Hl. discriminate.
      * rewrite (i_used p v Hi c0 Hc0). unfold used_region. cbn [v_live region fst].
        assert (Hp : b_ptr c0 <> ptr) by (intros E; apply Hne; eapply (nodup_nth (pl_blocks p)); eauto; congruence).
        generalize (v_live v). induction l as [|x l IHl]; cbn [filter existsb]; auto.
        destruct (fst x =? ptr) eqn:Ex; cbn [negb existsb]; rewrite IHl; auto.
        replace (fst x =? b_ptr c0) with false; auto. symmetry. apply Z.eqb_neq. lia.
    + intros l Hl. apply filter_In in Hl. destruct Hl as [Hl _].
      destruct (live_block p v l Hi Hl) as (c & Hc & E1 & E2). apply In_nth_error in Hc. destruct Hc as [j Hj].
      assert (X := set_used_nth (pl_blocks p) i false j). rewrite Hj in X. apply nth_error_In in X.
      eexists. split; [exact X|]. destruct (Nat.eqb j i); auto.
    + assert (Hn := i_nodup p v Hi). revert Hn. generalize (v_live v).
      induction l as [|x l IHl]; intros Hn; cbn [filter map]; auto. inversion Hn as [|? ? H1 H2]; subst.
      destruct (negb (fst x =? b_ptr b)); auto. cbn [map]. constructor; auto.
      intros H. apply H1. apply in_map_iff in H. destruct H as (y & E & Hy). apply filter_In in Hy.
      apply in_map_iff. exists y. tauto.
    + rewrite set_used_length. assert (Hil : (i < length (pl_blocks p))%nat) by (apply nth_error_Some; congruence).
      assert (H := i_hint p v Hi). destruct (i <? pl_hint p)%nat; lia.
    + intros j c Hj Hc. rewrite set_used_nth in Hc.
      destruct (nth_error (pl_blocks p) j) as [c0|] eqn:Ej; [|discriminate]. injection Hc as <-.
      assert (Hj' : (j < pl_hint p)%nat /\ j <> i).
      { destruct (i <? pl_hint p)%nat eqn:E; [apply Nat.ltb_lt in E|apply Nat.ltb_ge in E]; lia. }
      destruct Hj' as [Hj1 Hj2]. replace (Nat.eqb j i) with false by (symmetry; apply Nat.eqb_neq; auto).
      eapply (i_before p v Hi); eauto.
    + apply Hi.
  - destruct HF as (b & Hb & Ep & Hu). assert (Hin : In b (pl_blocks p)) by (eapply nth_error_In; eauto).
    rewrite (i_used p v Hi b Hin) in Hu. intros H.
    assert (X : used_region v (region b) = true) by (apply used_region_In; cbn; congruence). congruence.
  - intros H. apply HF. apply in_map_iff in H. destruct H as (l & E & Hl).
    destruct (live_block p v l Hi Hl) as (c & Hc & E1 & E2). apply in_map_iff. exists c. split; auto. congruence.
Qed.

Lemma filter_all : forall {A} (f : A -> bool) l, (forall k x, nth_error l k = Some x -> f x = true) -> filter f l = l.
Proof.
  intros A f. induction l as [|a l IH]; intros H; cbn [filter]; auto. rewrite (H 0%nat a eq_refl). f_equal.
  apply IH. intros k x Hk. apply (H (S k)). auto.
Qed.

Lemma purge_ok : forall gpu p v, pool_inv p v ->
  match pool_purge gpu p with
  | POk p' r => right v PPurge r /\ pool_inv p' (after v PPurge r)
  | Terminated => gpu = false /\ exists x, In x (v_held v) /\ used_region v x = false
  | OutOfRange => False
  end.
Proof.
  intros gpu p v Hi. unfold pool_purge. set (unused := filter (fun b => negb (b_used b)) (pl_blocks p)).
  assert (Hnd := blocks_nodup p v Hi).
  assert (Hun : forall b, In b unused <-> In b (pl_blocks p) /\ b_used b = false).
  { intros b. unfold unused. rewrite filter_In. destruct (b_used b); split; intros [H1 H2]; auto; discriminate. }
  assert (Hrel : forall b, In b (pl_blocks p) -> (In (b_ptr b) (map b_ptr unused) <-> b_used b = false)).
  { intros b Hb. split.
    - intros H. apply in_map_iff in H. destruct H as (c & E & Hc). apply Hun in Hc. destruct Hc as [Hc Hu].
      apply In_nth_error in Hb. destruct Hb as [i Hbi]. apply In_nth_error in Hc. destruct Hc as [j Hcj].
      assert (i = j) by (eapply (nodup_nth (pl_blocks p)); eauto). subst j. congruence.
    - intros Hu. apply in_map. apply Hun. auto. }
  assert (OK : right v PPurge (Purged (map b_ptr unused)) /\
    pool_inv (mkPool (filter b_used (pl_blocks p)) (pl_hint p) (pl_total p - zsum (map b_size unused))) (after v PPurge (Purged (map b_ptr unused)))).
  { split.
    - cbn [right]. intros x Hx. rewrite (i_held p v Hi) in Hx. apply in_map_iff in Hx. destruct Hx as (b & <- & Hb).
      rewrite <- (i_used p v Hi b Hb). apply Hrel. auto.
    - assert (Hheld : filter (fun x => negb (existsb (Z.eqb (fst x)) (map b_ptr unused))) (v_held v) = map region (filter b_used (pl_blocks p))).
      { rewrite (i_held p v Hi). clearbody unused. clear Hun.
        assert (G : forall l, (forall b, In b l -> (In (b_ptr b) (map b_ptr unused) <-> b_used b = false)) ->
           filter (fun x => negb (existsb (Z.eqb (fst x)) (map b_ptr unused))) (map region l) = map region (filter b_used l)).
        { induction l as [|b l IH]; intros H; cbn [map filter]; auto.
          assert (Hb := H b (or_introl eq_refl)). rewrite IH by (intros; apply H; right; auto).
          cbn [region fst]. destruct (existsb (Z.eqb (b_ptr b)) (map b_ptr unused)) eqn:E.
          - apply existsb_exists in E. destruct E as (q & Hq & E). apply Z.eqb_eq in E. subst q.
            rewrite (proj1 Hb Hq). cbn [negb]. reflexivity.
          - destruct (b_used b) eqn:Eu; cbn [negb map]; [reflexivity|]. exfalso.
            assert (X : existsb (Z.eqb (b_ptr b)) (map b_ptr unused) = true).
            { apply existsb_exists. exists (b_ptr b). split; [apply Hb; auto|apply Z.eqb_refl]. }
            congruence. }
        apply G. auto. }
      cbn [after]. constructor; cbn [v_held v_live pl_blocks pl_hint pl_total].
      + auto.
      + apply disj_filter. apply Hi.
      + apply Forall_forall. intros b Hb. apply filter_In in Hb. apply (proj1 (Forall_forall _ _) (i_size p v Hi)). tauto.
      + intros b Hb. apply filter_In in Hb. apply (i_used p v Hi). tauto.
      + intros l Hl. destruct (live_block p v l Hi Hl) as (c & Hc & E1 & E2). exists c. split; auto.
        apply filter_In. split; auto. rewrite (i_used p v Hi c Hc). apply used_region_In. cbn. rewrite E1. apply in_map. auto.
      + apply Hi.
      + (* the blocks before the hint stay *)
        assert (H := i_hint p v Hi). rewrite <- (firstn_skipn (pl_hint p) (pl_blocks p)), filter_app, app_length.
        rewrite (filter_all b_used (firstn (pl_hint p) (pl_blocks p))).
        * rewrite firstn_length_le by auto. lia.
        * intros k x Hk. assert (Hlt : (k < pl_hint p)%nat).
          { assert (k < length (firstn (pl_hint p) (pl_blocks p)))%nat by (apply nth_error_Some; congruence).
            rewrite firstn_length_le in H0; auto. }
          eapply (i_before p v Hi); eauto.
          rewrite <- (firstn_skipn (pl_hint p) (pl_blocks p)). rewrite nth_error_app1; auto.
          apply nth_error_Some. congruence.
      + intros k b _ Hb. apply nth_error_In in Hb. apply filter_In in Hb. tauto.
      + rewrite Hheld, (i_total p v Hi), (i_held p v Hi), !map_map. cbn [region snd].
        change (fun x => b_size x) with b_size. unfold unused. rewrite (zsum_filter_split b_used). auto. }
  destruct gpu; auto. destruct unused as [|b u] eqn:E; auto.
  split; auto. exists (region b). destruct (proj1 (Hun b)) as [H1 H2]; [simpl; auto|].
  rewrite (i_held p v Hi). split; [apply in_map; auto|]. rewrite <- (i_used p v Hi); auto.
Qed.

Lemma run_ok : forall gpu ops p v rs e, pool_inv p v -> pool_run gpu ops p = (rs, e) -> system_ok v ops rs ->
  all_right v ops rs /\
  match e with
  | Running p' => length rs = length ops /\ pool_inv p' (view_after v ops rs)
  | EndTerminated =>
      let w := view_after v ops rs in
      match nth_error ops (length rs) with
      | Some (PFree ptr, _) => ~ In ptr (map fst (v_live w))
      | Some (PPurge, _) => gpu = false /\ exists x, In x (v_held w) /\ used_region w x = false
      | _ => False
      end
  | EndOutOfRange => False
  end.
Proof.
  intros gpu. induction ops as [|[o addr] ops IH]; intros p v rs e Hi E Hs; cbn [pool_run] in E.
  - injection E as <- <-. cbn. auto.
  - destruct (pool_step gpu addr o p) as [p' r| |] eqn:Es.
    + destruct (pool_run gpu ops p') as [rs' e'] eqn:Er. injection E as <- <-. cbn [system_ok] in Hs. destruct Hs as [Hs1 Hs2].
      assert (H : right v o r /\ pool_inv p' (after v o r)).
      { destruct o as [req|ptr|]; cbn [pool_step] in Es.
        - destruct (alloc_ok addr req p v Hi) as (p2 & r2 & E2 & H). rewrite Es in E2. injection E2 as <- <-. auto.
        - assert (H := free_ok ptr p v Hi). rewrite Es in H. auto.
        - assert (H := purge_ok gpu p v Hi). rewrite Es in H. auto. }
      destruct H as [H1 H2]. destruct (IH p' (after v o r) rs' e' H2 Er Hs2) as [I1 I2].
      cbn [all_right view_after length nth_error]. split; auto. destruct e'; auto. destruct I2. split; auto.
    + injection E as <- <-. cbn [all_right view_after length nth_error]. split; auto.
      destruct o as [req|ptr|]; cbn [pool_step] in Es.
      * destruct (alloc_ok addr req p v Hi) as (p2 & r2 & E2 & _). congruence.
      * assert (H := free_ok ptr p v Hi). rewrite Es in H. auto.
      * assert (H := purge_ok gpu p v Hi). rewrite Es in H. auto.
    + injection E as <- <-. exfalso. destruct o as [req|ptr|]; cbn [pool_step] in Es.
      * destruct (alloc_ok addr req p v Hi) as (p2 & r2 & E2 & _). congruence.
      * assert (H := free_ok ptr p v Hi). rewrite Es in H. auto.
      * assert (H := purge_ok gpu p v Hi). rewrite Es in H. auto.
Qed.
