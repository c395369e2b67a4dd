From Coq Require Import Permutation.
From Verif Require Import Common LayoutModel LayoutSpec LayoutProofs1 LayoutProofs2 LayoutProofs4
  LayoutProofs5 LayoutProofs6 LayoutProofs7 LayoutProofs8 GatherModel GatherSpec GatherProofs1 GatherProofs2
  GatherProofs3 GatherProofs4 GatherProofs5 GatherProofs6 GatherProofs7 GatherProofs8 OverlapModel.

Lemma visited_app : forall a b, visited (a ++ b) = visited a ++ visited b.
Proof. intros. apply flat_map_app. Qed.
Lemma visited_map : forall l, visited (map Visit l) = l.
Proof. induction l as [|a l IH]; auto. change (a :: visited (map Visit l) = a :: l). congruence. Qed.

Lemma filter_partition : forall X (f : X -> bool) l,
  Permutation (filter (fun x => Bool.eqb (f x) false) l ++ filter (fun x => Bool.eqb (f x) true) l) l.
Proof.
  intros X f l. induction l as [|x l IH]; cbn; auto. destruct (f x); cbn.
  - apply Permutation_sym, Permutation_cons_app, Permutation_sym, IH.
  - apply perm_skip, IH.
Qed.

Lemma overlap_once : forall wa mask idx, Permutation (visited (overlap_loop wa mask idx)) idx.
Proof.
  intros wa mask idx. unfold overlap_loop, loop_pass. rewrite visited_app, visited_map.
  destruct (Z.eqb_spec mask 0) as [->|Hn].
  - cbn. rewrite app_nil_r. replace (filter _ idx) with idx; auto.
    induction idx as [|i idx IH]; auto. cbn [filter]. rewrite Z.land_0_r. cbn. f_equal. exact IH.
  - cbn [visited flat_map app]. fold (visited (map Visit (filter (fun i => Bool.eqb (negb (Z.land (wa i) mask =? 0)) true) idx))).
    rewrite visited_map. apply (filter_partition _ (fun i => negb (Z.land (wa i) mask =? 0))).
Qed.

Lemma mask_bit : forall d k, 0 <= d < 8 -> 0 <= k -> Z.testbit (Z.shiftl 1 d mod 256) k = (d =? k).
Proof.
  intros d k Hd Hk. change 256 with (2 ^ 8).
  rewrite Z.shiftl_mul_pow2, Z.mul_1_l by lia.
  rewrite Z.mod_small by (split; [apply Z.pow_nonneg; lia|apply Z.pow_lt_mono_r; lia]).
  apply Z.pow2_bits_eqb. lia.
Qed.

Lemma fold_wait_bit : forall lat r i k ds w, 0 <= k -> (forall d, In d ds -> 0 <= d < 8) ->
  Z.testbit (fold_left (fun w d => if volume (nodeinfo lat r) <=? neighb lat r d i then Z.lor w (Z.shiftl 1 d mod 256) else w) ds w) k
  = Z.testbit w k || existsb (fun d => (d =? k) && (volume (nodeinfo lat r) <=? neighb lat r d i)) ds.
Proof.
  intros lat r i k ds. induction ds as [|d ds IH]; intros w Hk Hd; cbn [fold_left existsb]; [rewrite orb_false_r; auto|].
  rewrite IH by (auto; intros; apply Hd; right; auto).
  assert (D := Hd d (or_introl eq_refl)).
  destruct (volume (nodeinfo lat r) <=? neighb lat r d i).
  - rewrite Z.lor_spec, mask_bit by lia. rewrite andb_true_r, orb_assoc. auto.
  - rewrite andb_false_r. auto.
Qed.

Lemma wait_arr_bit : forall lat r i d, (length (l_size lat) <= 4)%nat -> is_direction (l_size lat) d ->
  Z.testbit (wait_arr lat r i) d = (volume (nodeinfo lat r) <=? neighb lat r d i).
Proof.
  intros lat r i d H4 Hd. unfold wait_arr. assert (D : 0 <= d) by (unfold is_direction in Hd; lia).
  rewrite fold_wait_bit; auto.
  2:{ intros d' H. apply dirs_In in H. unfold is_direction in H. lia. }
  rewrite Z.bits_0. cbn [orb].
  destruct (existsb _ _) eqn:E.
  - apply existsb_exists in E. destruct E as (d' & _ & E). apply andb_true_iff in E. destruct E as [E1 E2].
    apply Z.eqb_eq in E1. subst. auto.
  - destruct (volume (nodeinfo lat r) <=? neighb lat r d i) eqn:E2; auto.
    rewrite <- E. apply (existsb_exists _ (zrange 0 (Z.to_nat (ndirs lat)))). exists d. split; [apply dirs_In; auto|]. rewrite Z.eqb_refl, E2. auto.
Qed.

Lemma land_bit : forall a b k, 0 <= k -> Z.testbit a k = true -> Z.testbit b k = true -> Z.land a b <> 0.
Proof.
  intros a b k Hk Ha Hb E. assert (X : Z.testbit (Z.land a b) k = true) by (rewrite Z.land_spec, Ha, Hb; auto).
  rewrite E, Z.bits_0 in X. discriminate.
Qed.

Lemma overlap_late : forall lat r mask idx pre i post d, (length (l_size lat) <= 4)%nat ->
  is_direction (l_size lat) d -> Z.testbit mask d = true -> volume (nodeinfo lat r) <= neighb lat r d i ->
  overlap_loop (wait_arr lat r) mask idx = pre ++ Visit i :: post -> In WaitGathers pre.
Proof.
  intros lat r mask idx pre i post d H4 Hd Hm Hn E.
  assert (L : Z.land (wait_arr lat r i) mask <> 0).
  { apply (land_bit _ _ d); auto; [unfold is_direction in Hd; lia|]. rewrite wait_arr_bit by auto. apply Z.leb_le. auto. }
  unfold overlap_loop in E.
  assert (P1 : forall l1 l2 pre, loop_pass (wait_arr lat r) mask false l1 ++ l2 = pre ++ Visit i :: post ->
     exists pre', pre = loop_pass (wait_arr lat r) mask false l1 ++ pre' /\ l2 = pre' ++ Visit i :: post).
  { clear E. intros l1 l2. induction l1 as [|a l1 IH]; intros pre0 E; [exists pre0; auto|].
    unfold loop_pass in *. cbn [filter] in *. destruct (Bool.eqb (negb (Z.land (wait_arr lat r a) mask =? 0)) false) eqn:B; auto.
    cbn [map app] in *. destruct pre0 as [|e pre0]; cbn in E; inversion E; subst.
    - exfalso. destruct (Z.eqb_spec (Z.land (wait_arr lat r i) mask) 0); [auto|discriminate].
    - destruct (IH _ H1) as (pre' & -> & E2). exists pre'. auto. }
  destruct (P1 _ _ _ E) as (pre' & -> & E2). apply in_app_iff. right.
  destruct (mask =? 0); [destruct pre'; discriminate|]. destruct pre' as [|e pre']; inversion E2; subst. left; auto.
Qed.

Lemma overlap_waits : forall wa mask idx,
  (forall pre post, overlap_loop wa mask idx = pre ++ WaitGathers :: post -> ~ In WaitGathers pre /\ ~ In WaitGathers post) /\
  (In WaitGathers (overlap_loop wa mask idx) <-> mask <> 0).
Proof.
  intros wa mask idx.
  assert (N : forall wi, ~ In WaitGathers (loop_pass wa mask wi idx)).
  { intros wi H. unfold loop_pass in H. apply in_map_iff in H. destruct H as (? & H & _). discriminate. }
  assert (U : forall a b pre post, ~ In WaitGathers a -> ~ In WaitGathers b ->
     a ++ WaitGathers :: b = pre ++ WaitGathers :: post -> ~ In WaitGathers pre /\ ~ In WaitGathers post).
  { induction a as [|e a IH]; intros b pre post Ha Hb E; destruct pre as [|e' pre]; cbn in E; inversion E; subst; auto.
    - exfalso. apply Hb, in_app_iff. right; left; auto.
    - exfalso. apply Ha. left; auto.
    - destruct (IH b pre post) as [X Y]; auto; [intros X; apply Ha; right; auto|].
      split; auto. intros [X'|X']; [apply Ha; left; auto|auto]. }
  unfold overlap_loop. destruct (Z.eqb_spec mask 0) as [E|E].
  - rewrite app_nil_r. split; [|split; [intros H; destruct (N _ H)|intros; contradiction]].
    intros pre post E'. exfalso. apply (N false). rewrite E'. apply in_app_iff. right; left; auto.
  - split; [|split; auto; intros _; apply in_app_iff; right; left; auto].
    intros pre post. apply U; auto.
Qed.

Section Early.
  Variable V : Type.
  Variable lat : lattice.
  Hypothesis Hv : valid_lattice lat.
  Hypothesis Hev : even_where_split lat.

  Local Notation dir := (is_direction (l_size lat)).

  (** The status effect of start_gather depends on the statuses only. *)
  Definition nstart (nc : bool) (st : parity -> gstat) (p : parity) : parity -> gstat :=
    match check_communication nc st p with
    | CDone | CStarted => st
    | CLocal => set_stat st p DONE
    | CDo q => set_stat st q STARTED
    end.
  Lemma start_gather_stat : forall r f d p s f' d', rs_stat V (start_gather V lat r f d p s) f' d' =
    if (f' =? f) && (d' =? d) then nstart (noncomm lat r d) (rs_stat V s f d) p else rs_stat V s f' d'.
  Proof.
    intros r f d p s f' d'. unfold start_gather, nstart. cbn [rs_stat set_tag].
    destruct (check_communication (noncomm lat r d) (rs_stat V s f d) p) as [| | |q]; cbn [rs_stat set_tag put_stat set_rstat].
    - destruct (Z.eqb_spec f' f), (Z.eqb_spec d' d); cbn; subst; auto.
    - unfold zupd2. auto.
    - destruct (Z.eqb_spec f' f), (Z.eqb_spec d' d); cbn; subst; auto.
    - unfold post_send, post_receive. destruct (cn_rank (to_node lat r d) =? r), (cn_rank (from_node lat r d) =? r);
        cbn [rs_stat set_tag put_stat set_rstat set_nsend set_sreq set_sbuf set_nrecv set_rreq]; unfold zupd2; auto.
  Qed.
  Lemma start_gather_stat_ext : forall r f d p s s', (forall f d, rs_stat V s f d = rs_stat V s' f d) ->
    forall f' d', rs_stat V (start_gather V lat r f d p s) f' d' = rs_stat V (start_gather V lat r f d p s') f' d'.
  Proof. intros r f d p s s' H f' d'. rewrite !start_gather_stat, !H. auto. Qed.

  Lemma nstart_false_gathered : forall st p q, is_gathered st q = true -> is_gathered (nstart false st p) q = true.
  Proof.
    intros st p q H. assert (X := gathered_start_mono st p q H). unfold start_st in X. unfold nstart.
    destruct (check_communication false st p) eqn:C; auto.
    exfalso. unfold check_communication in C. destruct (is_gathered st p); [discriminate|].
    destruct (_ || _); [discriminate|]. destruct p; try discriminate.
    destruct (_ && _); [discriminate|]. destruct (negb _); [discriminate|]. destruct (negb _); discriminate.
  Qed.

  Lemma start_gathers_keeps : forall r p reads s m f d q, noncomm lat r d = false ->
    is_gathered (rs_stat V s f d) q = true ->
    is_gathered (rs_stat V (fst (start_gathers V lat r p reads s m)) f d) q = true.
  Proof.
    intros r p reads. induction reads as [|[f0 d0] reads IH]; intros s m f d q Hc H; cbn [start_gathers fst]; auto.
    apply IH; auto. rewrite start_gather_stat. destruct (Z.eqb_spec f f0), (Z.eqb_spec d d0); cbn; auto.
    subst. rewrite Hc. apply nstart_false_gathered; auto.
  Qed.
  Lemma start_gathers_mask_mono : forall r p reads s m k, Z.testbit m k = true ->
    Z.testbit (snd (start_gathers V lat r p reads s m)) k = true.
  Proof.
    intros r p reads. induction reads as [|[f0 d0] reads IH]; intros s m k H; cbn [start_gathers snd]; auto.
    apply IH. rewrite Z.lor_spec, H. auto.
  Qed.
  Lemma start_gathers_unset : forall r p reads s m f d, (length (l_size lat) <= 4)%nat -> dir d ->
    noncomm lat r d = false -> In (f, d) reads ->
    Z.testbit (snd (start_gathers V lat r p reads s m)) d = false ->
    is_gathered (rs_stat V (fst (start_gathers V lat r p reads s m)) f d) p = true.
  Proof.
    intros r p reads. induction reads as [|[f0 d0] reads IH]; intros s m f d H4 Hd Hc Hi Hb; [destruct Hi|].
    cbn [start_gathers] in *. destruct Hi as [E|Hi]; [|apply IH; auto].
    inversion E; subst f0 d0. apply start_gathers_keeps; auto. rewrite start_gather_stat, !Z.eqb_refl. cbn [andb].
    rewrite Hc in Hb |- *.
    destruct (check_communication false (rs_stat V s f d) p) as [| | |q] eqn:C.
    - unfold nstart. rewrite C. unfold check_communication in C. destruct (is_gathered (rs_stat V s f d) p); auto.
      destruct (_ || _); [discriminate|]. destruct p; try discriminate.
      destruct (_ && _); [discriminate|]. destruct (negb _); [discriminate|]. destruct (negb _); discriminate.
    - exfalso. unfold check_communication in C. destruct (is_gathered (rs_stat V s f d) p); [discriminate|].
      destruct (_ || _); [discriminate|]. destruct p; try discriminate.
      destruct (_ && _); [discriminate|]. destruct (negb _); [discriminate|]. destruct (negb _); discriminate.
    - exfalso. rewrite start_gathers_mask_mono in Hb; [discriminate|]. rewrite Z.lor_spec. cbn [start_result]. unfold get_dir_mask.
      unfold is_direction in Hd. rewrite mask_bit, Z.eqb_refl, orb_true_r by lia. auto.
    - exfalso. rewrite start_gathers_mask_mono in Hb; [discriminate|]. rewrite Z.lor_spec. cbn [start_result]. unfold get_dir_mask.
      unfold is_direction in Hd. rewrite mask_bit, Z.eqb_refl, orb_true_r by lia. auto.
  Qed.
  Lemma start_gathers_app : forall r p l1 l2 s m,
    start_gathers V lat r p (l1 ++ l2) s m =
    start_gathers V lat r p l2 (fst (start_gathers V lat r p l1 s m)) (snd (start_gathers V lat r p l1 s m)).
  Proof. intros r p l1. induction l1 as [|[f d] l1 IH]; intros; cbn; auto. Qed.

  (** *** In the machine *)
  Variable prog : list (mop V).
  Local Notation pc g r := (rs_pc V (sys_rank V g r)).

  Lemma set_net_rank : forall g s r t n m, sys_rank V (set_net V g s r t n m) = sys_rank V g.
  Proof. reflexivity. Qed.

  Lemma step_pc : forall g l g' r, step V lat prog g l = Some g' ->
    (pc g' r = pc g r /\ (forall f d, rs_stat V (sys_rank V g' r) f d = rs_stat V (sys_rank V g r) f d)) \/
    (l = Exec r /\ exists o s', nth_error prog (pc g r) = Some o /\ exec_mop V lat r o (sys_rank V g r) = Next s' /\
       sys_rank V g' r = set_pc V s' (S (pc g r))).
  Proof.
    intros g l g' r E. destruct l as [r0|r0 [[f d] q]|r0 [[f d] q]]; cbn [step] in E.
    - destruct (nth_error prog (pc g r0)) as [o|] eqn:Eo; [|discriminate].
      destruct (exec_mop V lat r0 o (sys_rank V g r0)) as [s'| | |] eqn:Ex; try discriminate.
      inversion E; subst. cbn [sys_rank set_rank].
      destruct (zupd_cases _ (sys_rank V g) r0 (set_pc V s' (S (pc g r0))) r) as [[-> ->]|[_ ->]]; [right|left; auto].
      split; auto. exists o, s'. auto.
    - destruct (rs_sreq V (sys_rank V g r0) (f, d, q)); try discriminate. inversion E; subst. rewrite set_net_rank. cbn [sys_rank set_rank].
      left. match goal with |- context [zupd _ _ ?x _] => destruct (zupd_cases _ (sys_rank V g) r0 x r) as [[-> ->]|[_ ->]]; auto end.
    - destruct (rs_rreq V (sys_rank V g r0) (f, d, q)) as [|peer t n|]; try discriminate.
      destruct (sys_net V g peer r0 t n); try discriminate. inversion E; subst. rewrite set_net_rank. cbn [sys_rank set_rank].
      left. match goal with |- context [zupd _ _ ?x _] => destruct (zupd_cases _ (sys_rank V g) r0 x r) as [[-> ->]|[_ ->]]; auto end.
  Qed.

  Lemma execution_pc : forall g ls g' r, execution lat prog g ls g' -> (pc g r <= pc g' r)%nat.
  Proof.
    intros g ls g' r E. induction E; auto.
    destruct (step_pc g l g1 r H0) as [[X _]|(_ & o & s' & _ & _ & X)]; [lia|]. rewrite X in IHE. cbn in IHE. lia.
  Qed.

  Lemma starts_execution : forall r p reads n0 g ls g', execution lat prog g ls g' ->
    (forall k f d, nth_error reads k = Some (f, d) -> nth_error prog (n0 + k) = Some (MStart f d p)) ->
    forall m m' s0, pc g r = (n0 + m)%nat -> pc g' r = (n0 + m')%nat -> (m' <= length reads)%nat ->
    (forall f d, rs_stat V (sys_rank V g r) f d = rs_stat V (fst (start_gathers V lat r p (firstn m reads) s0 0)) f d) ->
    (forall f d, rs_stat V (sys_rank V g' r) f d = rs_stat V (fst (start_gathers V lat r p (firstn m' reads) s0 0)) f d).
  Proof.
    intros r p reads n0 g ls g' E HR. induction E; intros m m' s0 P1 P2 Hm HS.
    - assert (m = m') by lia. subst. auto.
    - destruct (step_pc g l g1 r H0) as [[X Y]|(_ & o & s' & Eo & Ex & X)].
      + apply (IHE m m' s0); auto; [congruence|]. intros. rewrite Y. auto.
      + assert (M := execution_pc _ _ _ r E). rewrite X in M. cbn in M.
        destruct (nth_error reads m) as [[f d]|] eqn:Er; [|apply nth_error_None in Er; lia].
        assert (Y := HR m f d Er). rewrite P1, Y in Eo. inversion Eo; subst o. cbn in Ex. inversion Ex; subst s'.
        apply (IHE (S m) m' s0); auto; [rewrite X; cbn; lia|].
        intros f' d'. rewrite X. cbn [rs_stat set_pc].
        rewrite (firstn_S _ _ _ _ Er), start_gathers_app. cbn [start_gathers fst].
        apply start_gather_stat_ext. auto.
  Qed.
End Early.

Section Contents.
  Variable V : Type.
  Variable lat : lattice.
  Lemma compile_contents : forall h (a : @astate V), sync lat a -> aexcl a -> Forall (op_directions lat) h ->
    aF (arun a (compile lat h)) = final_fields h (aF a).
  Proof.
    induction h as [|o h IH]; intros a Hs He Hd; auto. inversion Hd; subst.
    destruct (compile_op_ok lat o a Hs He H1) as (_ & B2 & B3 & _).
    unfold compile. cbn [flat_map]. rewrite arun_app. fold (compile lat h).
    rewrite IH; auto; [|apply aexcl_run; auto]. rewrite B3. destruct o; auto.
  Qed.
End Contents.

Section EarlyRead.
  Variable V : Type.
  Variable lat : lattice.
  Hypothesis Hv : valid_lattice lat.
  Hypothesis Hev : even_where_split lat.
  Hypothesis H4 : (length (l_size lat) <= 4)%nat.

  Lemma on_node_off : forall r d c, is_rank lat r -> is_direction (l_size lat) d -> holds lat r c ->
    (off lat r d c = false <-> holds lat r (neighbour lat c d)).
  Proof.
    intros r d c Hr Hd Hc. unfold off. rewrite negb_false_iff, holds_on_node. tauto.
  Qed.

  Lemma init_sync : forall F, sync lat (ainit (V := V) F).
  Proof. intros F f d c Hd. reflexivity. Qed.

  Lemma early_reads : forall mem sb F h reads p h' g0 ls0 g ls r,
    initial_fields lat mem F ->
    Forall (op_directions lat) (h ++ map (fun fd => OStart (fst fd) (snd fd) p) reads ++ h') ->
    let prog := compile lat (h ++ map (fun fd => OStart (fst fd) (snd fd) p) reads ++ h') in
    execution lat prog (init_system V mem sb) ls0 g0 -> execution lat prog g0 ls g -> is_rank lat r ->
    rs_pc V (sys_rank V g0 r) = length (compile lat h) ->
    rs_pc V (sys_rank V g r) = (length (compile lat h) + length reads)%nat ->
    let mask := snd (start_gathers V lat r p reads (sys_rank V g0 r) 0) in
    forall i f d, In i (loop_indices (nodeinfo lat r) p) -> In (f, d) reads ->
      Z.land (wait_arr lat r i) mask = 0 ->
      exists c', periodic_neighbour (l_size lat) (coordinates (nodeinfo lat r) i) d c' /\
        rs_mem V (sys_rank V g r) f (neighb lat r d i) = final_fields h F f c'.
  Proof.
    intros mem sb F h reads p h' g0 ls0 g ls r Hm Hd prog E0 E Hr P0 P mask i f d Hi Hin Hmask.
    set (starts := map (fun fd => OStart (V := V) (fst fd) (snd fd) p) reads) in *.
    assert (Ds : Forall (op_directions lat) (h ++ starts)).
    { apply Forall_app in Hd. destruct Hd as [D1 D2]. apply Forall_app in D2. apply Forall_app. tauto. }
    assert (Dh : Forall (op_directions lat) h) by (apply Forall_app in Hd; tauto).
    destruct (compile_ok lat _ (ainit F) (init_sync F) (aexcl_init F) Hd) as (Hok & _ & _). fold prog in Hok.
    destruct (compile_ok lat _ (ainit F) (init_sync F) (aexcl_init F) Ds) as (_ & Hsync & _).
    assert (S0 := execution_sys V lat Hv Hev prog F Hok _ _ _ (init_sys V lat prog F mem sb Hm) E0).
    assert (S1 := execution_sys V lat Hv Hev prog F Hok _ _ _ S0 E).
    assert (Cs : compile lat starts = map (fun fd => MStart (fst fd) (snd fd) p) reads).
    { unfold starts, compile. clear. induction reads; cbn; congruence. }
    set (k := rs_pc V (sys_rank V g r)) in *.
    assert (Ak : A V prog F k = arun (ainit F) (compile lat (h ++ starts))).
    { unfold A, prog. f_equal. rewrite P. unfold compile. rewrite app_assoc, !flat_map_app.
      fold (compile lat h). fold (compile lat starts). rewrite Cs.
      rewrite firstn_app, !app_length, map_length. rewrite firstn_all2 by (rewrite app_length, map_length; lia).
      replace (_ - _)%nat with 0%nat by lia. cbn. rewrite app_nil_r. auto. }
    assert (L := so_rank _ _ _ _ _ S1 r Hr). fold k in L. rewrite Ak in L.
    assert (Fk : aF (arun (ainit F) (compile lat (h ++ starts))) = final_fields h F).
    { rewrite compile_contents; auto; [|apply init_sync|apply aexcl_init]. cbn [aF ainit].
      generalize F. clear - reads. subst starts. induction h as [|o h IH]; intros F'; [|destruct o; cbn; auto].
      cbn. induction reads; cbn; auto. }
    assert (Hdd : is_direction (l_size lat) d).
    { clear - Hd Hin. apply Forall_app in Hd. destruct Hd as [_ D2]. apply Forall_app in D2. destruct D2 as [D2 _].
      rewrite Forall_forall in D2. apply (D2 (OStart f d p)). apply in_map_iff. exists (f, d). auto. }
    destruct (loop_index lat Hv r p i Hr Hi) as (_ & Hh & Esi & Hp).
    exists (neighbour lat (coordinates (nodeinfo lat r) i) d). split.
    { apply neighbour_is_periodic; auto. eapply holds_is_site; eauto. }
    rewrite <- Esi at 1. destruct (off lat r d (coordinates (nodeinfo lat r) i)) eqn:Ho.
    - assert (Hg : is_gathered (aS (arun (ainit F) (compile lat (h ++ starts))) f d) p = true).
      2:{ assert (X := gathered_halo V lat Hv prog F _ r _ _ _ f d p Hr L Hdd (fun c => Hsync f d c Hdd) Hg).
          rewrite Fk in X. apply X. apply face_In; auto. }
      assert (Hnc : noncomm lat r d = false) by (apply noncomm_false; left; eapply off_from; eauto).
      rewrite <- (ro_stat _ _ _ _ _ _ _ _ _ L f d Hdd Hnc).
      assert (HR : forall k f d, nth_error reads k = Some (f, d) -> nth_error prog (length (compile lat h) + k) = Some (MStart f d p)).
      { intros k0 f0 d0 E1. unfold prog, compile. rewrite !flat_map_app. fold (compile lat h). fold (compile lat starts). rewrite Cs.
        rewrite nth_error_app2 by lia. rewrite nth_error_app1.
        - replace (_ + k0 - _)%nat with k0 by lia. rewrite nth_error_map, E1. auto.
        - rewrite map_length. apply nth_error_Some in E1 || (assert (k0 < length reads)%nat by (apply nth_error_Some; congruence); lia). }
      rewrite (starts_execution V lat prog r p reads (length (compile lat h)) g0 ls g E HR 0%nat (length reads) (sys_rank V g0 r)) by (auto; lia).
      rewrite firstn_all. apply start_gathers_unset; auto.
      fold mask. destruct (Z.testbit mask d) eqn:B; auto. exfalso.
      apply (land_bit (wait_arr lat r i) mask d); auto; [unfold is_direction in Hdd; lia|].
      rewrite wait_arr_bit by auto. apply Z.leb_le.
      destruct (neighb_range lat r d _ Hv Hr Hdd Hh) as (_ & N & _). rewrite Esi in N.
      destruct (Z.le_gt_cases (volume (nodeinfo lat r)) (neighb lat r d i)) as [|C]; auto.
      apply N in C. assert (X : off lat r d (coordinates (nodeinfo lat r) i) = false) by (apply on_node_off; auto). congruence.
    - rewrite neighb_local by auto. rewrite (ro_mem _ _ _ _ _ _ _ _ _ L), Fk; auto.
      apply on_node_off; auto.
  Qed.
End EarlyRead.
