(** Even and odd halo sites are equally many; sender and receiver list the
    sites of a face in the same order. *)
From Coq Require Import Sorted.
From Verif Require Import Common LayoutModel LayoutSpec LayoutProofs1 LayoutProofs2 LayoutProofs4
  LayoutProofs5 LayoutProofs6 LayoutProofs7 VlayoutModel VlayoutSpec VlayoutProofs1 VlayoutProofs2
  VlayoutProofs3 VlayoutProofs4 VlayoutProofs5.

(** ** Sorted lists *)

Lemma sorted_ext : forall l l', StronglySorted Z.lt l -> StronglySorted Z.lt l' ->
  (forall x, In x l <-> In x l') -> l = l'.
Proof.
  induction l as [|x l IH]; intros l' S1 S2 H.
  - destruct l' as [|y l']; auto. destruct (proj2 (H y) (or_introl eq_refl)).
  - destruct l' as [|y l']; [destruct (proj1 (H x) (or_introl eq_refl))|].
    inversion S1 as [|? ? S1' F1]; subst. inversion S2 as [|? ? S2' F2]; subst.
    rewrite Forall_forall in F1, F2.
    assert (E : x = y).
    { destruct (proj1 (H x) (or_introl eq_refl)) as [|Hx]; auto.
      destruct (proj2 (H y) (or_introl eq_refl)) as [|Hy]; auto.
      specialize (F1 y Hy). specialize (F2 x Hx). lia. }
    subst y. f_equal. apply IH; auto. intros z. split; intros Hz.
    + destruct (proj1 (H z) (or_intror Hz)) as [<-|]; auto. specialize (F1 _ Hz). lia.
    + destruct (proj2 (H z) (or_intror Hz)) as [<-|]; auto. specialize (F2 _ Hz). lia.
Qed.

Lemma zrange_sorted : forall n a, StronglySorted Z.lt (zrange a n).
Proof.
  induction n; intros; cbn [zrange]; constructor; auto. apply Forall_forall. intros x Hx.
  apply zrange_In in Hx. lia.
Qed.

Lemma filter_sorted : forall (P : Z -> bool) l, StronglySorted Z.lt l -> StronglySorted Z.lt (filter P l).
Proof.
  induction 1; cbn [filter]; [constructor|]. destruct (P a); auto. constructor; auto.
  rewrite Forall_forall in H0 |- *. intros x Hx. apply filter_In in Hx. apply H0. tauto.
Qed.

Lemma map_sorted : forall (f : Z -> Z) l, StronglySorted Z.lt l ->
  (forall x y, In x l -> In y l -> x < y -> f x < f y) -> StronglySorted Z.lt (map f l).
Proof.
  induction 1; cbn [map]; intros Hf; constructor.
  - apply IHStronglySorted. intros. apply Hf; simpl; auto.
  - rewrite Forall_forall in H0 |- *. intros x Hx. apply in_map_iff in Hx. destruct Hx as (y & <- & Hy).
    apply Hf; simpl; auto.
Qed.

Lemma sorted_app : forall l l', StronglySorted Z.lt l -> StronglySorted Z.lt l' ->
  (forall x y, In x l -> In y l' -> x < y) -> StronglySorted Z.lt (l ++ l').
Proof.
  induction 1; cbn [app]; intros S2 Hc; auto. constructor.
  - apply IHStronglySorted; auto. intros. apply Hc; simpl; auto.
  - rewrite Forall_forall in H0 |- *. intros x Hx. apply in_app_or in Hx.
    destruct Hx; auto. apply Hc; simpl; auto.
Qed.

(** ** Counting with an involution *)

Lemma toggle_le : forall (P Q : Z -> bool) (f : Z -> Z) l, NoDup l ->
  (forall i, In i l -> P i = true -> Q i = true -> In (f i) l /\ P (f i) = true /\ Q (f i) = false /\ f (f i) = i) ->
  (length (filter (fun i => P i && Q i) l) <= length (filter (fun i => P i && negb (Q i)) l))%nat.
Proof.
  intros P Q f l Hn H. rewrite <- (map_length f). apply NoDup_incl_length.
  - apply NoDup_map_inj; [|apply NoDup_filter; auto]. intros x y Hx Hy E.
    apply filter_In in Hx, Hy. destruct Hx as [Hx Ex], Hy as [Hy Ey].
    apply andb_true_iff in Ex, Ey. destruct (H x Hx) as (_ & _ & _ & <-); try tauto.
    destruct (H y Hy) as (_ & _ & _ & <-); try tauto. congruence.
  - intros z Hz. apply in_map_iff in Hz. destruct Hz as (x & <- & Hx). apply filter_In in Hx.
    destruct Hx as [Hx Ex]. apply andb_true_iff in Ex. destruct (H x Hx) as (H1 & H2 & H3 & _); try tauto.
    apply filter_In. rewrite H2, H3. auto.
Qed.

Lemma toggle_count : forall (P Q : Z -> bool) (f : Z -> Z) l, NoDup l ->
  (forall i, In i l -> P i = true -> In (f i) l /\ P (f i) = true /\ Q (f i) = negb (Q i) /\ f (f i) = i) ->
  length (filter (fun i => P i && Q i) l) = length (filter (fun i => P i && negb (Q i)) l).
Proof.
  intros P Q f l Hn H. apply Nat.le_antisymm.
  - apply (toggle_le P Q f); auto. intros i Hi HP HQ. destruct (H i Hi HP) as (H1 & H2 & H3 & H4).
    rewrite HQ in H3. auto.
  - assert (T := toggle_le P (fun i => negb (Q i)) f l Hn).
    assert (E : filter (fun i => P i && negb (negb (Q i))) l = filter (fun i => P i && Q i) l).
    { apply filter_ext. intros. rewrite negb_involutive. auto. }
    cbn beta in T. rewrite E in T. apply T. intros i Hi HP HQ. destruct (H i Hi HP) as (H1 & H2 & H3 & H4).
    apply negb_true_iff in HQ. rewrite H3, HQ. auto.
Qed.

(** ** Order of mixed-radix numbers *)

Lemma radix_compare : forall A B s x y, 0 <= x < s -> 0 <= y < s ->
  (A * s + x ?= B * s + y) = match A ?= B with Eq => x ?= y | o => o end.
Proof.
  intros A B s x y Hx Hy. destruct (Z.compare_spec A B).
  - subst. destruct (Z.compare_spec x y); [apply Z.compare_eq_iff|apply Z.compare_lt_iff|apply Z.compare_gt_iff]; lia.
  - apply Z.compare_lt_iff. nia.
  - apply Z.compare_gt_iff. nia.
Qed.

Definition dgt (ss mn c : list Z) (j : nat) : Z := (nth j c 0 - nth j mn 0) mod nth j ss 0.

Lemma inner_compare : forall ss mn c c' ss1 mn1 c1 c1',
  length mn = length ss -> length c = length ss -> length c' = length ss ->
  length ss1 = length ss -> length mn1 = length ss -> length c1 = length ss -> length c1' = length ss ->
  (forall j, (j < length ss)%nat -> 0 < nth j ss 0 /\ 0 < nth j ss1 0) ->
  (forall j, (j < length ss)%nat ->
     (dgt ss mn c j = dgt ss1 mn1 c1 j /\ dgt ss mn c' j = dgt ss1 mn1 c1' j /\ nth j ss 0 = nth j ss1 0) \/
     (dgt ss mn c j = dgt ss mn c' j /\ dgt ss1 mn1 c1 j = dgt ss1 mn1 c1' j)) ->
  (inner_loop ss mn c ?= inner_loop ss mn c') = (inner_loop ss1 mn1 c1 ?= inner_loop ss1 mn1 c1').
Proof.
  induction ss as [|s ss IH]; intros mn c c' ss1 mn1 c1 c1' L1 L2 L3 L4 L5 L6 L7 Hp H;
    destruct mn as [|m0 mn], c as [|x c], c' as [|x' c'], ss1 as [|s1 ss1], mn1 as [|m1 mn1],
      c1 as [|y c1], c1' as [|y' c1']; try discriminate; [reflexivity|].
  cbn [inner_loop]. destruct (Hp 0%nat ltac:(simpl; lia)) as [P1 P2]. cbn [nth] in P1, P2.
  rewrite !radix_compare by (apply Z.mod_pos_bound; auto).
  rewrite (IH mn c c' ss1 mn1 c1 c1'); try (simpl in *; lia).
  - destruct (inner_loop ss1 mn1 c1 ?= inner_loop ss1 mn1 c1'); auto.
    destruct (H 0%nat ltac:(simpl; lia)) as [(E1 & E2 & _)|[E1 E2]]; unfold dgt in E1, E2; cbn [nth] in E1, E2.
    + rewrite E1, E2. auto.
    + rewrite E1, E2, !Z.compare_refl. auto.
  - intros j Hj. apply (Hp (S j)). simpl. lia.
  - intros j Hj. apply (H (S j)). simpl. lia.
Qed.

Lemma lanef_compare : forall m dv q q' q1 q1' j top top' top1 top1',
  Forall2 (fun n x => 0 <= x < n) dv q -> Forall2 (fun n x => 0 <= x < n) dv q' ->
  Forall2 (fun n x => 0 <= x < n) dv q1 -> Forall2 (fun n x => 0 <= x < n) dv q1' ->
  (top ?= top') = (top1 ?= top1') ->
  (forall k, (k < length dv)%nat -> (j + k)%nat <> m ->
     (nth k q 0 = nth k q1 0 /\ nth k q' 0 = nth k q1' 0) \/
     (nth k q 0 = nth k q' 0 /\ nth k q1 0 = nth k q1' 0)) ->
  (lanef m j top dv q ?= lanef m j top' dv q') = (lanef m j top1 dv q1 ?= lanef m j top1' dv q1').
Proof.
  induction dv as [|n dv IH]; intros q q' q1 q1' j top top' top1 top1' F1 F2 F3 F4 Ht H;
    inversion F1; inversion F2; inversion F3; inversion F4; subst; cbn [lanef]; auto.
  assert (E := IH _ _ _ _ (S j) top top' top1 top1' H4 H9 H14 H19 Ht).
  assert (E' : forall k, (k < length dv)%nat -> (S j + k)%nat <> m ->
     (nth k l' 0 = nth k l'1 0 /\ nth k l'0 0 = nth k l'2 0) \/
     (nth k l' 0 = nth k l'0 0 /\ nth k l'1 0 = nth k l'2 0)).
  { intros k Hk Hm. apply (H (S k)); simpl; lia. }
  specialize (E E'). destruct (Nat.eqb_spec j m) as [Hjm|Hjm]; auto.
  rewrite !radix_compare by auto. rewrite E.
  destruct (lanef m (S j) top1 dv l'1 ?= lanef m (S j) top1' dv l'2); auto.
  destruct (H 0%nat ltac:(simpl; lia) ltac:(lia)) as [[E1 E2]|[E1 E2]]; cbn [nth] in E1, E2; rewrite E1, E2; auto.
  rewrite !Z.compare_refl. auto.
Qed.

Lemma half_compare : forall i i', (i / 2 = i' / 2 -> i = i') -> (i / 2 ?= i' / 2) = (i ?= i').
Proof.
  intros i i' H. destruct (Z.compare_spec i i').
  - subst. apply Z.compare_refl.
  - apply Z.compare_lt_iff. destruct (Z.eq_dec (i / 2) (i' / 2)) as [E|]; [specialize (H E)|]; lia.
  - apply Z.compare_gt_iff. destruct (Z.eq_dec (i / 2) (i' / 2)) as [E|]; [specialize (H E)|]; lia.
Qed.

Section Faces.
  Variable v : vlattice.
  Hypothesis Hvv : valid_vlattice v.
  Let lat := vl_lat v.
  Let Hv : valid_lattice lat := vv_valid v Hvv.
  Let ls := l_size lat.
  Let n := length ls.

  (** ** Toggling a coordinate inside its subnode *)
  Definition tg (r : Z) (b : nat) (c : list Z) : list Z :=
    upd_at b (fun x => if Z.even (x - nth b (n_min (nodeinfo lat r)) 0) then x + 1 else x - 1) c.

  Lemma even_dir : forall r a, is_rank lat r -> exists b, b <> a /\ (b < n)%nat /\
    forall dbl, sub_extent v dbl r b mod 2 = 0.
  Proof.
    intros r a Hr. assert (H := Hvv). destruct H as (_ & _ & _ & _ & _ & _ & _ & H).
    destruct (H r Hr) as (i & j & Hij & Hi & Hj & Ei & Ej).
    assert (Hall : forall k, (nth k (n_siz (nodeinfo lat r)) 0 / nth k (vl_div v) 0) mod 2 = 0 ->
      forall dbl, sub_extent v dbl r k mod 2 = 0).
    { intros k Ek dbl. unfold sub_extent. fold lat. rewrite Z.mul_mod, Ek by lia. auto. }
    destruct (Nat.eq_dec i a) as [->|]; [exists j|exists i]; repeat split; auto.
  Qed.

  Lemma tg_spec : forall r b c, is_rank lat r -> (b < n)%nat -> (forall dbl, sub_extent v dbl r b mod 2 = 0) ->
    holds lat r c ->
    holds lat r (tg r b c) /\ (forall dbl, same_subnode v dbl r (tg r b c) c) /\
    (forall j, (j < n)%nat -> j <> b -> nth j (tg r b c) 0 = nth j c 0) /\
    even_site (tg r b c) = negb (even_site c) /\ tg r b (tg r b c) = c.
  Proof.
    intros r b c Hr Hb He Hc. destruct (holds_is_site lat r c Hv Hr Hc) as [Hl _]. fold ls n in Hl.
    set (f := fun x => if Z.even (x - nth b (n_min (nodeinfo lat r)) 0) then x + 1 else x - 1).
    assert (Hn : forall j, nth j (tg r b c) 0 = if (j =? b)%nat then f (nth b c 0) else nth j c 0).
    { intros j. unfold tg. rewrite nth_upd_at by lia. auto. }
    assert (Hdv : forall dbl, (nth b c 0 - nth b (n_min (nodeinfo lat r)) 0) / sub_extent v dbl r b =
      (f (nth b c 0) - nth b (n_min (nodeinfo lat r)) 0) / sub_extent v dbl r b).
    { intros dbl. destruct (ext_facts v Hvv dbl r b Hr Hb) as (E1 & E2 & E3).
      specialize (He dbl). set (x := nth b c 0) in *. set (e := sub_extent v dbl r b) in *.
      unfold f. set (mm := nth b (n_min (nodeinfo lat r)) 0) in *.
      assert (D := Z.div_mod (x - mm) e ltac:(lia)). assert (B := Z.mod_pos_bound (x - mm) e E1).
      set (k := (x - mm) / e) in *. set (p := (x - mm) mod e) in *.
      assert (Hee : exists h, e = 2 * h) by (exists (e / 2); lia). destruct Hee as [h Hh].
      assert (Hev : Z.even (x - mm) = Z.even p).
      { rewrite D, Hh. rewrite Z.even_add, <- Z.mul_assoc, Z.even_mul. cbn [Z.even orb]. destruct (Z.even p); auto. }
      rewrite Hev. destruct (Z.even p) eqn:Ep.
      - apply Z.even_spec in Ep. destruct Ep as [w Ew]. apply Z.div_unique with (p + 1); lia.
      - assert (Ho : Z.odd p = true) by (rewrite <- Z.negb_even, Ep; auto).
        apply Z.odd_spec in Ho. destruct Ho as [w Ew]. apply Z.div_unique with (p - 1); lia. }
    assert (Hh : holds lat r (tg r b c)).
    { destruct Hc as (H1 & H2 & H3). assert (Ll : length (tg r b c) = n) by (unfold tg; rewrite upd_at_length; auto).
      split; [lia|]. split; [lia|]. intros j Hj. rewrite Hn. destruct (Nat.eqb_spec j b) as [->|]; [|apply H3; lia].
      specialize (Hdv false). destruct (ext_facts v Hvv false r b Hr Hb) as (E1 & E2 & E3). fold lat in E3.
      assert (Hx := H3 b ltac:(lia)).
      set (mm := nth b (n_min (nodeinfo lat r)) 0) in *. set (e := sub_extent v false r b) in *.
      assert (K1 : 0 <= (nth b c 0 - mm) / e) by (apply Z.div_pos; lia).
      assert (K2 : (nth b c 0 - mm) / e < nsub v false b) by (apply Z.div_lt_upper_bound; lia).
      rewrite Hdv in K1, K2. assert (D := Z.div_mod (f (nth b c 0) - mm) e ltac:(lia)).
      assert (B := Z.mod_pos_bound (f (nth b c 0) - mm) e E1). nia. }
    split; auto. split; [|split; [|split]].
    - intros dbl j Hj. unfold subnode_of. fold lat. rewrite Hn. destruct (Nat.eqb_spec j b) as [->|]; auto.
    - intros j Hj Hjb. rewrite Hn. destruct (Nat.eqb_spec j b); tauto.
    - rewrite !even_site_spec. unfold tg. fold f. rewrite zsum_upd by lia. unfold f.
      destruct (Z.even (nth b c 0 - _)); rewrite Z.even_add.
      + replace (nth b c 0 + 1 - nth b c 0) with 1 by ring. cbn. destruct (Z.even (zsum c)); auto.
      + replace (nth b c 0 - 1 - nth b c 0) with (-1) by ring. cbn. destruct (Z.even (zsum c)); auto.
    - apply nth_ext with (d := 0) (d' := 0); [unfold tg; rewrite !upd_at_length; auto|].
      intros j _. unfold tg at 1. fold f. rewrite nth_upd_at by (unfold tg; rewrite upd_at_length; lia).
      rewrite !Hn, Nat.eqb_refl. destruct (Nat.eqb_spec j b) as [->|]; auto.
      unfold f. set (mm := nth b (n_min (nodeinfo lat r)) 0). set (x := nth b c 0).
      destruct (Z.even (x - mm)) eqn:Ex.
      + assert (E : Z.even (x + 1 - mm) = false).
        { replace (x + 1 - mm) with (x - mm + 1) by ring. rewrite Z.even_add, Ex. auto. }
        rewrite E. lia.
      + assert (E : Z.even (x - 1 - mm) = true).
        { replace (x - 1 - mm) with (x - mm - 1) by ring. rewrite Z.even_sub, Ex. auto. }
        rewrite E. lia.
  Qed.

  (** Even and odd off-node sites. *)
  Lemma flist_half : forall r d, is_rank lat r -> is_direction ls d ->
    length (flist v r d EVEN) = length (flist v r d ODD).
  Proof.
    intros r d Hr Hd. destruct (even_dir r (axis n d) Hr) as (b & Hba & Hb & He). cbn [flist].
    apply (toggle_count (offi v r d) (fun i => even_site (vcrd v r i))
      (fun i => vsite_index v (nodeinfo lat r) (tg r b (vcrd v r i)))); [apply zrange_NoDup|].
    intros i Hi Ho. destruct (vcrd_spec v Hvv r i Hr Hi) as [Hh Ei].
    destruct (tg_spec r b _ Hr Hb He Hh) as (T1 & _ & T3 & T4 & T5).
    assert (Ec : vcrd v r (vsite_index v (nodeinfo lat r) (tg r b (vcrd v r i))) = tg r b (vcrd v r i)).
    { unfold vcrd at 1. apply (crd_index v Hvv); auto. }
    split; [|split; [|split]].
    - apply (vI_In v Hvv); auto. apply (index_range v Hvv); auto.
    - unfold offi. rewrite Ec. unfold offi in Ho. fold lat in Ho |- *.
      assert (O1 := off_axis lat Hv r _ d Hr T1 Hd). assert (O2 := off_axis lat Hv r _ d Hr Hh Hd).
      fold ls in O1, O2. fold n in O1, O2.
      rewrite T3 in O1; [|apply axis_lt; auto|auto]. congruence.
    - rewrite Ec. auto.
    - rewrite Ec, T5. auto.
  Qed.

  (** Even and odd halo vectors. *)
  Lemma hvs_half : forall dbl r d, is_rank lat r -> is_direction ls d ->
    length (filter (fun u => halo v dbl r d u && even_site (vc v dbl r u))
              (zrange 0 (Z.to_nat (v_sites v dbl (nodeinfo lat r))))) =
    length (filter (fun u => halo v dbl r d u && negb (even_site (vc v dbl r u)))
              (zrange 0 (Z.to_nat (v_sites v dbl (nodeinfo lat r))))).
  Proof.
    intros dbl r d Hr Hd. destruct (even_dir r (axis n d) Hr) as (b & Hba & Hb & He).
    destruct (vs_facts v Hvv dbl r Hr) as [V0 V1]. fold lat in V0, V1. set (vs := v_sites v dbl (nodeinfo lat r)) in *.
    apply (toggle_count (halo v dbl r d) (fun u => even_site (vc v dbl r u))
      (fun u => vec v dbl r (tg r b (vc v dbl r u)))); [apply zrange_NoDup|].
    intros u Hi Ho. apply zrange_In in Hi. assert (Hu : 0 <= u < vs) by lia.
    destruct (vc_spec v Hvv dbl r d Hr u Hu) as (Hh & Ev & El & Hz).
    destruct (tg_spec r b _ Hr Hb He Hh) as (T1 & T2 & T3 & T4 & T5).
    assert (Hu' := vec_range v Hvv dbl r _ Hr T1). fold lat in Hu'. fold vs in Hu'.
    destruct (vc_spec v Hvv dbl r d Hr _ Hu') as (Hh' & Ev' & El' & Hz').
    assert (Ec : vc v dbl r (vec v dbl r (tg r b (vc v dbl r u))) = tg r b (vc v dbl r u)).
    { apply (site_unique v Hvv dbl r); auto.
      - intros j Hj. rewrite Hz' by auto. symmetry. rewrite T2 by auto. apply Hz. auto.
      - apply (vec_place v Hvv); auto. }
    split; [|split; [|split]].
    - apply zrange_In. lia.
    - unfold halo in *. rewrite Ec. rewrite <- Ho. unfold bnd, place_in_subnode. fold lat ls n.
      rewrite T3; [auto|apply axis_lt; auto|auto].
    - rewrite Ec. auto.
    - rewrite Ec, T5. auto.
  Qed.

  (** ** Order of the sites of a face *)
  Section Order.
    Variables (r d : Z).
    Hypothesis Hr : is_rank lat r.
    Hypothesis Hd : is_direction ls d.
    Let a := axis n d.
    Let t := sgn n d.
    Let nb c := neighbour lat c d.

    Lemma off_fixed : forall c c', holds lat r c -> holds lat r c' ->
      off lat r d c = true -> off lat r d c' = true ->
      let R := node_rank lat (nb c) in
      node_rank lat (nb c') = R /\
      subnode_of v false r c a = subnode_of v false r c' a /\
      place_in_subnode v false r c a = place_in_subnode v false r c' a /\
      subnode_of v false R (nb c) a = subnode_of v false R (nb c') a /\
      place_in_subnode v false R (nb c) a = place_in_subnode v false R (nb c') a.
    Proof.
      intros c c' Hc Hc' Ho Ho' R.
      assert (ER : node_rank lat (nb c') = R) by (apply (face_same_rank lat Hv r d c); auto).
      assert (Ha : (a < n)%nat) by (apply a_lt; auto).
      destruct (sub_place v Hvv false r c a Hr Hc Ha) as (_ & Hp & Hq).
      destruct (sub_place v Hvv false r c' a Hr Hc' Ha) as (_ & Hp' & Hq').
      assert (Ht : t = 1 \/ t = -1) by apply sgn_cases.
      assert (K : forall x, holds lat r x -> off lat r d x = true ->
        bnd v false d r x = true /\ negb ((0 <=? subnode_of v false r x a + t) && (subnode_of v false r x a + t <? nsub v false a)) = true /\
        subnode_of v false (node_rank lat (nb x)) (nb x) a = (subnode_of v false r x a + t) mod nsub v false a /\
        place_in_subnode v false (node_rank lat (nb x)) (nb x) a = if t =? 1 then 0 else sub_extent v false (node_rank lat (nb x)) a - 1).
      { intros x Hx Hox. destruct (g_axis v Hvv false r d Hr Hd x Hx) as [G1 G2].
        destruct (bnd v false d r x) eqn:B.
        - destruct (G2 eq_refl) as (E1 & E2 & E3). split; auto. fold lat in E1. rewrite Hox in E1. symmetry in E1.
          apply andb_true_iff in E1. destruct E1 as [_ E1]. split; [exact E1|]. split; [exact E2|exact E3].
        - destruct (G1 eq_refl) as [E _]. fold lat in E. congruence. }
      destruct (K c Hc Ho) as (B1 & Q1 & S1 & P1). destruct (K c' Hc' Ho') as (B2 & Q2 & S2 & P2).
      rewrite ER in S2, P2. fold R in S1, P1.
      unfold bnd in B1, B2. fold lat ls n a t in B1, B2.
      assert (Eq : subnode_of v false r c a = subnode_of v false r c' a) by (apply negb_true_iff in Q1, Q2; lia).
      split; auto. split; auto. split; [apply negb_true_iff in B1, B2; lia|].
      rewrite S1, S2, P1, P2, Eq. auto.
    Qed.

    Lemma kk_inner : forall q c, is_rank lat q -> holds lat q c ->
      kk v q c = if even_site c then inner_loop (ssr v q) (mnr v q) c / 2
                 else inner_loop (ssr v q) (mnr v q) c / 2 + n_even (subbox v q).
    Proof.
      intros q c Hq Hc. destruct (rank_grid v Hvv q Hq) as [Hg _]. destruct (sub_lens v Hvv q Hq) as [Hl Hs].
      apply (holds_vin v Hvv) in Hc; auto.
      rewrite (inner_loop_base (vl_div v)) by auto.
      unfold kk, site_index, get_logical_index.
      destruct (count_sites_spec (mnr v q) (ssr v q) Hl Hs) as (_ & _ & M1 & M2).
      fold (subbox v q) in M1, M2. rewrite M1, M2.
      assert (Ep := base_parity (vl_div v) (ssr v q) (mnr v q) Hg Hl c Hc).
      unfold bas. rewrite Ep. auto.
    Qed.

    Lemma kk_compare : forall q c c', is_rank lat q -> holds lat q c -> holds lat q c' ->
      even_site c = even_site c' ->
      (kk v q c ?= kk v q c') = (inner_loop (ssr v q) (mnr v q) c ?= inner_loop (ssr v q) (mnr v q) c').
    Proof.
      intros q c c' Hq Hc Hc' Ee. 
      assert (Hinj : inner_loop (ssr v q) (mnr v q) c / 2 = inner_loop (ssr v q) (mnr v q) c' / 2 ->
        inner_loop (ssr v q) (mnr v q) c = inner_loop (ssr v q) (mnr v q) c').
      { intros E. destruct (rank_grid v Hvv q Hq) as [Hg _]. destruct (sub_lens v Hvv q Hq) as [Hl Hs].
        assert (Ek : kk v q c = kk v q c') by (rewrite !kk_inner, Ee, E by auto; auto).
        apply (kk_inj v Hvv) in Ek; auto.
        apply (holds_vin v Hvv) in Hc, Hc'; auto.
        rewrite !(inner_loop_base (vl_div v)) by auto. unfold bas in Ek. rewrite Ek. auto. }
      rewrite !kk_inner by auto. rewrite Ee. destruct (even_site c').
      - apply half_compare. auto.
      - rewrite !(Z.add_comm _ (n_even _)), Zcompare_plus_compat. apply half_compare. auto.
    Qed.

    Lemma dgt_place : forall q c j, is_rank lat q -> (j < n)%nat ->
      dgt (ssr v q) (mnr v q) c j = place_in_subnode v false q c j.
    Proof.
      intros q c j Hq Hj. unfold dgt, place_in_subnode. rewrite (sub_extent_eq v Hvv) by auto. cbn [andb].
      rewrite Z.mul_1_r. auto.
    Qed.

    Lemma index_compare : forall c c', holds lat r c -> holds lat r c' ->
      off lat r d c = true -> off lat r d c' = true -> even_site c = even_site c' ->
      let R := node_rank lat (nb c) in
      (vsite_index v (nodeinfo lat r) c ?= vsite_index v (nodeinfo lat r) c') =
      (vsite_index v (nodeinfo lat R) (nb c) ?= vsite_index v (nodeinfo lat R) (nb c')).
    Proof.
      intros c c' Hc Hc' Ho Ho' Ee R. destruct (off_fixed c c' Hc Hc' Ho Ho') as (ER & F1 & F2 & F3 & F4).
      fold R in ER, F3, F4.
      destruct (g_owner v Hvv r d Hr Hd c Hc) as [HR H1]. fold lat in HR, H1. fold (nb c) in HR, H1. fold R in HR, H1.
      destruct (g_owner v Hvv r d Hr Hd c' Hc') as [_ H2]. fold lat in H2. fold (nb c') in H2. rewrite ER in H2.
      assert (Ee1 : even_site (nb c) = even_site (nb c')).
      { destruct (face_parity lat Hv r d c Hr Hd Hc Ho) as [fl Hf]. unfold nb. rewrite !Hf, Ee by auto. auto. }
      assert (Hoth : forall j, (j < n)%nat -> j <> a ->
        (subnode_of v false R (nb c) j = subnode_of v false r c j /\
         place_in_subnode v false R (nb c) j = place_in_subnode v false r c j /\
         subnode_of v false R (nb c') j = subnode_of v false r c' j /\
         place_in_subnode v false R (nb c') j = place_in_subnode v false r c' j /\
         sub_extent v false R j = sub_extent v false r j)).
      { intros j Hj Hja. destruct (g_other v Hvv false r d Hr Hd c Hc j Hj Hja) as (X1 & X2 & X3).
        destruct (g_other v Hvv false r d Hr Hd c' Hc' j Hj Hja) as (Y1 & Y2 & Y3).
        fold lat in X1, X2, X3, Y1, Y2, Y3. fold (nb c) in X1, X2, X3. fold (nb c') in Y1, Y2, Y3.
        fold R in X1, X2, X3. rewrite ER in Y1, Y2, Y3. auto. }
      assert (Hlr := lane_range v Hvv false).
      rewrite !(index_vec_lane v Hvv false) by auto.
      rewrite !radix_compare by (apply Hlr; auto). unfold vec.
      rewrite !kk_compare by auto.
      destruct (sub_lens v Hvv r Hr) as [S1 _]. destruct (sub_lens v Hvv R HR) as [S2 _].
      assert (L1 := ssr_len v Hvv r). assert (L2 := ssr_len v Hvv R). fold lat ls n in L1, L2.
      destruct (holds_is_site lat r c Hv Hr Hc) as [C1 _]. destruct (holds_is_site lat r c' Hv Hr Hc') as [C2 _].
      destruct (holds_is_site lat R _ Hv HR H1) as [C3 _]. destruct (holds_is_site lat R _ Hv HR H2) as [C4 _].
      fold ls n in C1, C2, C3, C4.
      rewrite (inner_compare _ _ c c' (ssr v R) (mnr v R) (nb c) (nb c')); try lia.
      2:{ intros j Hj. rewrite L1 in Hj. destruct (ssr_nth v Hvv r j Hr Hj) as (_ & P1 & _).
          destruct (ssr_nth v Hvv R j HR Hj) as (_ & P2 & _). auto. }
      2:{ intros j Hj. rewrite L1 in Hj. rewrite !dgt_place by auto.
          destruct (Nat.eq_dec j a) as [->|Hja]; [right; auto|left].
          destruct (Hoth j Hj Hja) as (X1 & X2 & X3 & X4 & X5). split; auto. split; auto.
          rewrite !(sub_extent_eq v Hvv) in X5 by auto. cbn [andb] in X5. lia. }
      destruct (inner_loop (ssr v R) (mnr v R) (nb c) ?= inner_loop (ssr v R) (mnr v R) (nb c')); auto.
      unfold lane, lam.
      assert (Hdg : forall q x j, is_rank lat q -> holds lat q x -> (j < n)%nat ->
        nth j (dig v q x) 0 = subnode_of v false q x j).
      { intros q x j Hq Hx Hj. rewrite (subnode_dig v Hvv false) by auto. auto. }
      assert (Hm := vv_m v Hvv). fold lat ls n in Hm.
      assert (Hl := vv_len v Hvv). fold lat ls n in Hl.
      apply lanef_compare; try (apply (dig_range v Hvv); auto).
      - rewrite !Hdg by auto. destruct (Nat.eq_dec (vl_merged v) a) as [Em|Em].
        + rewrite Em, F1, F3, !Z.compare_refl. auto.
        + destruct (Hoth _ Hm Em) as (X1 & _ & X3 & _). rewrite X1, X3. auto.
      - intros k Hk _. rewrite Hl in Hk. rewrite !Hdg by auto.
        destruct (Nat.eq_dec k a) as [->|Hka]; [right; auto|left].
        destruct (Hoth _ Hk Hka) as (X1 & _ & X3 & _). auto.
    Qed.

    (** The sender lists its face in the order of the receiver's. *)
    Lemma message_order : forall c0 p, holds lat r c0 -> off lat r d c0 = true ->
      let R := node_rank lat (nb c0) in
      slist v R (oppd lat d) p =
      map (fun i => vsite_index v (nodeinfo lat R) (vnb v r d i)) (flist v r d p).
    Proof.
      intros c0 p Hc0 Ho0 R. assert (Hd' := oppd_direction lat d Hd).
      destruct (g_owner v Hvv r d Hr Hd c0 Hc0) as [HR H0]. fold lat in HR, H0. fold (nb c0) in HR, H0. fold R in HR, H0.
      destruct (face_back lat Hv r d c0 Hr Hd Hc0 Ho0) as [B0 B1]. fold (nb c0) in B0, B1. fold R in B0.
      assert (Er : node_rank lat c0 = r).
      { symmetry. apply (owner_unique lat c0 Hv); auto. apply (holds_is_site lat r); auto. }
      assert (Main : forall b : bool,
        filter (fun j => offi v R (oppd lat d) j && Bool.eqb (even_site (vnb v R (oppd lat d) j)) b) (vI v R) =
        map (fun i => vsite_index v (nodeinfo lat R) (vnb v r d i))
            (filter (fun i => offi v r d i && Bool.eqb (even_site (vcrd v r i)) b) (vI v r))).
      { intros b. apply sorted_ext.
        - apply filter_sorted, zrange_sorted.
        - apply map_sorted; [apply filter_sorted, zrange_sorted|].
          intros x y Hx Hy Hlt. apply filter_In in Hx, Hy. destruct Hx as [Hx Px], Hy as [Hy Py].
          apply andb_true_iff in Px, Py. destruct Px as [Px1 Px2], Py as [Py1 Py2].
          apply eqb_prop in Px2, Py2.
          destruct (vcrd_spec v Hvv r x Hr Hx) as [Hhx Ix]. destruct (vcrd_spec v Hvv r y Hr Hy) as [Hhy Iy].
          assert (C := index_compare _ _ Hhx Hhy Px1 Py1 ltac:(congruence)).
          assert (ERx : node_rank lat (nb (vcrd v r x)) = R) by (apply (face_same_rank lat Hv r d c0); auto).
          rewrite ERx in C. fold lat in Ix, Iy. rewrite Ix, Iy in C. apply Z.compare_lt_iff in Hlt. rewrite Hlt in C. symmetry in C.
          apply Z.compare_lt_iff in C. exact C.
        - intros j. rewrite filter_In, in_map_iff, andb_true_iff. split.
          + intros (Hj & Ho & Eb). destruct (vcrd_spec v Hvv R j HR Hj) as [Hh Ij]. fold lat in Hh, Ij.
            unfold offi in Ho. fold lat in Ho.
            destruct (face_back lat Hv R (oppd lat d) (vcrd v R j) HR Hd' Hh Ho) as [B2 B3].
            assert (Ec : node_rank lat (neighbour lat (vcrd v R j) (oppd lat d)) = r).
            { rewrite (face_same_rank lat Hv R (oppd lat d) (nb c0) HR Hd' H0 B0 _ Hh Ho). rewrite B1. auto. }
            destruct (g_owner v Hvv R (oppd lat d) HR Hd' _ Hh) as [_ H3]. fold lat in H3. rewrite Ec in H3.
            rewrite Ec in B2. rewrite oppd_oppd in B2, B3 by auto.
            set (c := neighbour lat (vcrd v R j) (oppd lat d)) in *.
            exists (vsite_index v (nodeinfo lat r) c).
            assert (Ecc : vcrd v r (vsite_index v (nodeinfo lat r) c) = c) by (apply (crd_index v Hvv); auto).
            split; [unfold vnb; rewrite Ecc; fold lat; rewrite B3; auto|].
            apply filter_In. split; [apply (vI_In v Hvv); auto; apply (index_range v Hvv); auto|].
            unfold offi. rewrite Ecc. fold lat. rewrite B2. cbn [andb]. exact Eb.
          + intros (i & <- & Hi). apply filter_In in Hi. destruct Hi as [Hi Pi]. apply andb_true_iff in Pi.
            destruct Pi as [Ho Eb]. destruct (vcrd_spec v Hvv r i Hr Hi) as [Hh Ii]. fold lat in Hh, Ii.
            unfold offi in Ho. fold lat in Ho.
            assert (ERi : node_rank lat (nb (vcrd v r i)) = R) by (apply (face_same_rank lat Hv r d c0); auto).
            destruct (face_back lat Hv r d _ Hr Hd Hh Ho) as [B2 B3]. fold (nb (vcrd v r i)) in B2, B3. rewrite ERi in B2.
            destruct (g_owner v Hvv r d Hr Hd _ Hh) as [_ H3]. fold lat in H3. fold (nb (vcrd v r i)) in H3. rewrite ERi in H3.
            assert (Ecc : vcrd v R (vsite_index v (nodeinfo lat R) (vnb v r d i)) = nb (vcrd v r i)).
            { apply (crd_index v Hvv); auto. }
            split; [apply (vI_In v Hvv); auto; apply (index_range v Hvv); auto|].
            unfold offi, vnb at 2. rewrite Ecc. fold lat. rewrite B3. split; auto. }
      assert (ME := Main true). assert (MO := Main false).
      assert (T : forall (P Q : Z -> bool) l, filter (fun i => P i && Bool.eqb (Q i) true) l = filter (fun i => P i && Q i) l).
      { intros. apply filter_ext. intros x. destruct (P x), (Q x); auto. }
      assert (F : forall (P Q : Z -> bool) l, filter (fun i => P i && Bool.eqb (Q i) false) l = filter (fun i => P i && negb (Q i)) l).
      { intros. apply filter_ext. intros x. destruct (P x), (Q x); auto. }
      rewrite !T in ME. rewrite !F in MO.
      destruct p; cbn [slist flist]; auto. rewrite map_app. f_equal; auto.
    Qed.
  End Order.
End Faces.
