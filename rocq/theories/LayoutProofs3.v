(** Proofs for C03: the block-wise remapping is a permutation. *)
From Verif Require Import Common LayoutModel LayoutSpec LayoutProofs1.

Lemma zrange_inj_surj : forall n (f : Z -> Z),
  (forall i, 0 <= i < Z.of_nat n -> 0 <= f i < Z.of_nat n) ->
  (forall i j, 0 <= i < Z.of_nat n -> 0 <= j < Z.of_nat n -> f i = f j -> i = j) ->
  forall r, 0 <= r < Z.of_nat n -> exists i, 0 <= i < Z.of_nat n /\ f i = r.
Proof.
  intros n f Hr Hi r Hrr.
  assert (Hincl : incl (zrange 0 n) (map f (zrange 0 n))).
  { apply NoDup_length_incl.
    - apply NoDup_map_inj; [|apply zrange_NoDup]. intros x y Hx Hy. apply zrange_In in Hx, Hy.
      apply Hi; lia.
    - rewrite map_length. lia.
    - intros y Hy. apply in_map_iff in Hy. destruct Hy as (x & <- & Hx). apply zrange_In in Hx.
      apply zrange_In. assert (H := Hr x). lia. }
  assert (H : In r (map f (zrange 0 n))) by (apply Hincl, zrange_In; lia).
  apply in_map_iff in H. destruct H as (i & E & H). apply zrange_In in H. exists i. split; [lia|auto].
Qed.

(** Block shape: per direction block size times block division is the division. *)
Inductive shape : list Z -> list Z -> list Z -> Prop :=
| shape_nil : shape [] [] []
| shape_cons : forall b bs q bd nd, 0 < b -> 0 < q -> shape bs bd nd ->
    shape (b :: bs) (q :: bd) (b * q :: nd).

Lemma block_div_spec : forall n q dv, block_div n q = Some dv ->
  2 <= dv <= 5 /\ n mod dv = 0 /\ q mod dv = 0.
Proof.
  unfold block_div. intros n q dv H. apply find_some in H. destruct H as [H1 H2].
  apply andb_true_iff in H2. simpl in H1. lia.
Qed.

Lemma shape_cons' : forall b q bs bd n nd, 0 < b -> 0 < q -> n = b * q -> shape bs bd nd ->
  shape (b :: bs) (q :: bd) (n :: nd).
Proof. intros. subst. constructor; auto. Qed.

Lemma block_sweep_shape : forall bs bd nd, shape bs bd nd -> forall n rb rd n' f, 0 < n ->
  block_sweep bs bd n = (rb, rd, n', f) ->
  shape rb rd nd /\ 0 < n' <= n /\ (f = true -> 2 * n' <= n).
Proof.
  induction 1; intros k rb rd n' f Hk E; cbn [block_sweep] in E.
  - inversion E; subst. split; [constructor|]. split; [lia|discriminate].
  - destruct (block_div k q) as [dv|] eqn:Ed.
    + apply block_div_spec in Ed. destruct Ed as (Hdv & Hm1 & Hm2).
      assert (Hk' := Z.div_mod k dv ltac:(lia)). assert (Hq' := Z.div_mod q dv ltac:(lia)).
      destruct (block_sweep bs bd (k / dv)) as [[[rb1 rd1] n1] f1] eqn:E1.
      inversion E; subst. clear E.
      assert (Hkp : 0 < k / dv) by nia.
      specialize (IHshape _ _ _ _ _ Hkp E1). destruct IHshape as (Hs & Hn & _).
      split; [|split; [nia|nia]].
      apply shape_cons'; [nia|nia|nia|auto].
    + destruct (block_sweep bs bd k) as [[[rb1 rd1] n1] f1] eqn:E1.
      inversion E; subst. clear E.
      specialize (IHshape _ _ _ _ _ Hk E1). destruct IHshape as (Hs & Hn & Hf).
      split; [|split; auto]. constructor; auto.
Qed.

Lemma block_loop_shape : forall fuel bs bd nd n, shape bs bd nd -> n <= Z.of_nat fuel ->
  exists rb rd, block_loop fuel bs bd n = Some (rb, rd) /\ shape rb rd nd.
Proof.
  induction fuel; intros bs bd nd n Hs Hn; cbn [block_loop].
  - destruct (Z.ltb_spec 1 n); [lia|]. eauto.
  - destruct (Z.ltb_spec 1 n); [|eauto].
    destruct (block_sweep bs bd n) as [[[rb rd] n'] f] eqn:E.
    destruct (block_sweep_shape _ _ _ Hs n rb rd n' f ltac:(lia) E) as (Hs' & Hn' & Hf).
    destruct f; [|eauto]. apply IHfuel; auto. specialize (Hf eq_refl). lia.
Qed.

Lemma shape_ones : forall nd, Forall (fun x => 0 < x) nd -> shape (map (fun _ => 1) nd) nd nd.
Proof. induction 1; simpl; [constructor|]. apply shape_cons'; auto; lia. Qed.

Lemma block_shape_ok : forall nlb nd, Forall (fun x => 0 < x) nd ->
  exists bs bd, block_shape nlb nd = Some (bs, bd) /\ shape bs bd nd.
Proof.
  intros. unfold block_shape. apply block_loop_shape; [apply shape_ones; auto|lia].
Qed.

(** Index inside the block and block index, without the running factors. *)
Fixpoint inner_idx (nd bs : list Z) (i : Z) : Z :=
  match nd, bs with
  | n :: nd', b :: bs' => (i mod n) mod b + b * inner_idx nd' bs' (i / n)
  | _, _ => 0
  end.
Fixpoint outer_idx (nd bs bd : list Z) (i : Z) : Z :=
  match nd, bs, bd with
  | n :: nd', b :: bs', q :: bd' => (i mod n) / b + q * outer_idx nd' bs' bd' (i / n)
  | _, _, _ => 0
  end.

Lemma block_indices_split : forall bs bd nd, shape bs bd nd -> forall i im bm,
  block_indices nd bs bd i im bm = (im * inner_idx nd bs i, bm * outer_idx nd bs bd i).
Proof.
  induction 1; intros; cbn [block_indices inner_idx outer_idx].
  - f_equal; ring.
  - rewrite IHshape. f_equal; ring.
Qed.

Lemma shape_nd_pos : forall bs bd nd, shape bs bd nd -> 0 < zprod bs /\ 0 < zprod bd /\
  zprod nd = zprod bs * zprod bd.
Proof.
  induction 1; [cbn; lia|]. rewrite !zprod_cons. destruct IHshape as (A1 & A2 & A3).
  rewrite A3. repeat split; try nia.
Qed.

Lemma div_range : forall i n p, 0 < n -> 0 <= i < n * p -> 0 <= i / n < p.
Proof. intros. split; [apply Z.div_pos; lia|apply Z.div_lt_upper_bound; lia]. Qed.

Lemma inner_outer_range : forall bs bd nd, shape bs bd nd -> forall i, 0 <= i < zprod nd ->
  0 <= inner_idx nd bs i < zprod bs /\ 0 <= outer_idx nd bs bd i < zprod bd.
Proof.
  induction 1; intros i Hi; [cbn; lia|].
  rewrite zprod_cons in Hi. cbn [inner_idx outer_idx]. rewrite !zprod_cons.
  assert (Hnp : 0 < b * q) by nia.
  destruct (IHshape (i / (b * q))) as [H3 H4]; [apply div_range; auto|].
  assert (Hm := Z.mod_pos_bound i (b * q) Hnp).
  assert (Hm2 := Z.mod_pos_bound (i mod (b * q)) b H).
  assert (Hd := div_range (i mod (b * q)) b q H ltac:(lia)).
  split; nia.
Qed.

Lemma radix_inj : forall b x y u v, 0 <= x < b -> 0 <= y < b -> x + b * u = y + b * v -> x = y /\ u = v.
Proof. intros. assert (u = v) by nia. split; nia. Qed.

Lemma inner_outer_inj : forall bs bd nd, shape bs bd nd -> forall i j,
  0 <= i < zprod nd -> 0 <= j < zprod nd ->
  inner_idx nd bs i = inner_idx nd bs j -> outer_idx nd bs bd i = outer_idx nd bs bd j -> i = j.
Proof.
  induction 1; intros i j Hi Hj E1 E2; [cbn in *; lia|].
  rewrite zprod_cons in Hi, Hj. cbn [inner_idx outer_idx] in E1, E2.
  assert (Hnp : 0 < b * q) by nia.
  assert (Hmi := Z.mod_pos_bound i (b * q) Hnp). assert (Hmj := Z.mod_pos_bound j (b * q) Hnp).
  assert (Hmi2 := Z.mod_pos_bound (i mod (b * q)) b H).
  assert (Hmj2 := Z.mod_pos_bound (j mod (b * q)) b H).
  assert (Hdi := div_range (i mod (b * q)) b q H ltac:(lia)).
  assert (Hdj := div_range (j mod (b * q)) b q H ltac:(lia)).
  apply radix_inj in E1; auto. apply radix_inj in E2; auto.
  destruct E1 as [E1 E1']. destruct E2 as [E2 E2'].
  assert (i / (b * q) = j / (b * q)) by (apply IHshape; auto; apply div_range; auto).
  assert (Di := Z.div_mod (i mod (b * q)) b ltac:(lia)).
  assert (Dj := Z.div_mod (j mod (b * q)) b ltac:(lia)).
  assert (Ei := Z.div_mod i (b * q) ltac:(lia)).
  assert (Ej := Z.div_mod j (b * q) ltac:(lia)).
  rewrite Ei, Ej, H2. rewrite Di, Dj, E1, E2. auto.
Qed.

Lemma map_entry_range : forall bs bd nd, shape bs bd nd -> forall i, 0 <= i < zprod nd ->
  0 <= map_array_entry nd bs bd i < zprod nd.
Proof.
  intros bs bd nd Hs i Hi. unfold map_array_entry. rewrite (block_indices_split _ _ _ Hs).
  destruct (inner_outer_range _ _ _ Hs i Hi). destruct (shape_nd_pos _ _ _ Hs) as (A1 & A2 & A3).
  rewrite A3. nia.
Qed.

Lemma map_entry_inj : forall bs bd nd, shape bs bd nd -> forall i j, 0 <= i < zprod nd ->
  0 <= j < zprod nd -> map_array_entry nd bs bd i = map_array_entry nd bs bd j -> i = j.
Proof.
  intros bs bd nd Hs i j Hi Hj. unfold map_array_entry. rewrite !(block_indices_split _ _ _ Hs).
  rewrite !Z.mul_1_l. intros E.
  destruct (inner_outer_range _ _ _ Hs i Hi). destruct (inner_outer_range _ _ _ Hs j Hj).
  assert (E' : inner_idx nd bs i + zprod bs * outer_idx nd bs bd i =
               inner_idx nd bs j + zprod bs * outer_idx nd bs bd j) by lia.
  apply radix_inj in E'; auto. destruct E'. eapply inner_outer_inj; eauto.
Qed.

Lemma fill_maps_other : forall nd bs bd is t k, ~ In k is -> fst (fill_maps nd bs bd is t) k = fst t k.
Proof.
  induction is; intros; cbn [fill_maps]; auto. rewrite IHis by (simpl in H; tauto). cbn [fst].
  apply zupd_other. simpl in H. intuition.
Qed.

Lemma fill_maps_fst : forall nd bs bd is t k, NoDup is -> In k is ->
  fst (fill_maps nd bs bd is t) k = map_array_entry nd bs bd k.
Proof.
  induction is; intros t k Hn Hk; [destruct Hk|]. inversion Hn; subst. cbn [fill_maps].
  destruct (in_dec Z.eq_dec k is).
  - apply IHis; auto.
  - rewrite fill_maps_other by auto. destruct Hk as [->|]; [|tauto]. apply zupd_same.
Qed.

Lemma fill_maps_snd_other : forall nd bs bd is t m, ~ In m (map (map_array_entry nd bs bd) is) ->
  snd (fill_maps nd bs bd is t) m = snd t m.
Proof.
  induction is; intros; cbn [fill_maps]; auto. simpl in H. rewrite IHis by tauto. cbn [snd].
  apply zupd_other. intuition.
Qed.

Lemma fill_maps_snd : forall nd bs bd is t k, NoDup (map (map_array_entry nd bs bd) is) -> In k is ->
  snd (fill_maps nd bs bd is t) (map_array_entry nd bs bd k) = k.
Proof.
  induction is; intros t k Hn Hk; [destruct Hk|]. simpl in Hn. inversion Hn; subst. cbn [fill_maps].
  destruct (in_dec Z.eq_dec k is).
  - apply IHis; auto.
  - destruct Hk as [->|]; [|tauto]. rewrite fill_maps_snd_other by auto. apply zupd_same.
Qed.

(** C03 *)
Lemma create_remap_ok : forall nlb nd, Forall (fun x => 0 < x) nd ->
  exists m inv, create_remap nlb nd = Some (m, inv) /\
  (forall i, 0 <= i < zprod nd -> 0 <= m i < zprod nd /\ inv (m i) = i) /\
  (forall r, 0 <= r < zprod nd -> 0 <= inv r < zprod nd /\ m (inv r) = r).
Proof.
  intros nlb nd Hp. destruct (block_shape_ok nlb nd Hp) as (bs & bd & E & Hs).
  unfold create_remap. rewrite E.
  set (t := fill_maps nd bs bd _ _). exists (fst t), (snd t).
  split; [destruct t; auto|].
  assert (Hpos := zprod_pos _ Hp).
  assert (Hfst : forall i, 0 <= i < zprod nd -> fst t i = map_array_entry nd bs bd i).
  { intros. apply fill_maps_fst; [apply zrange_NoDup|apply zrange_In; lia]. }
  assert (Hsnd : forall i, 0 <= i < zprod nd -> snd t (map_array_entry nd bs bd i) = i).
  { intros. apply fill_maps_snd; [|apply zrange_In; lia].
    apply NoDup_map_inj; [|apply zrange_NoDup]. intros x y Hx Hy. apply zrange_In in Hx, Hy.
    apply map_entry_inj; auto; lia. }
  split.
  - intros i Hi. rewrite Hfst by auto. split; [apply map_entry_range; auto|auto].
  - intros r Hr.
    destruct (zrange_inj_surj (Z.to_nat (zprod nd)) (map_array_entry nd bs bd)) with (r := r)
      as (i & Hi & <-).
    + intros. rewrite Z2Nat.id in * by lia. apply map_entry_range; auto.
    + intros. rewrite Z2Nat.id in * by lia. eapply map_entry_inj; eauto.
    + lia.
    + rewrite Z2Nat.id in Hi by lia. rewrite Hsnd by auto. rewrite Hfst; auto.
Qed.
