(** The rows of ranks. *)
From Verif Require Import Common LayoutModel LayoutSpec LayoutProofs1 LayoutProofs2 LayoutProofs4 FftModel FftSpec FftProofs1.
Open Scope Z_scope.

(** ** Intervals *)
Lemma cdiv_lt_succ : forall L n k, 0 < n <= L -> cdiv L n k < cdiv L n (k + 1).
Proof.
  intros L n k H. apply cdiv_lt; [lia|]. assert (G := proj2 (cdiv_lt L n k (cdiv L n k - 1) ltac:(lia))).
  destruct (Z_lt_le_dec (cdiv L n k * n) ((k + 1) * L)) as [E|E]; [exact E|].
  assert (cdiv L n k - 1 < cdiv L n k) as H1 by lia. apply (cdiv_lt L n k) in H1; [|lia]. lia.
Qed.

Lemma cdiv_index : forall L n k, 0 < n <= L -> cdiv L n k * n / L = k.
Proof. intros L n k H. apply cdiv_interval; [lia|lia|]. assert (G := cdiv_lt_succ L n k H). lia. Qed.

Lemma cdiv_le : forall L n i j, 0 < L -> 0 < n -> i <= j -> cdiv L n i <= cdiv L n j.
Proof.
  intros L n i j HL Hn H. replace j with (i + Z.of_nat (Z.to_nat (j - i))) by lia. induction (Z.to_nat (j - i)) as [|k IH].
  - now rewrite Z.add_0_r.
  - assert (G := cdiv_mono L n (i + Z.of_nat k) HL Hn). replace (i + Z.of_nat (S k)) with (i + Z.of_nat k + 1) by lia. lia.
Qed.

Lemma cdiv_range : forall L n k, 0 < n <= L -> 0 <= k < n -> 0 <= cdiv L n k < L.
Proof.
  intros L n k H Hk. split; [apply cdiv_nonneg; lia|]. assert (G := cdiv_lt_succ L n k H).
  assert (G2 := cdiv_le L n (k + 1) n ltac:(lia) ltac:(lia) ltac:(lia)). rewrite cdiv_n in G2 by lia. lia.
Qed.

(** ** Ranks with sites *)
Lemma node_size_pos : forall ls nd id, grid ls nd -> (forall j, (j < length ls)%nat -> nth j nd 0 <= nth j ls 0) ->
  0 <= id < zprod nd -> Forall (fun s => 0 < s) (node_size ls nd id).
Proof.
  intros ls nd id G. revert id. induction G as [|L ls n nd HL Hn G IH]; intros id H Hid; [constructor|].
  cbn [node_size]. rewrite zprod_cons in Hid. assert (H0 := H 0%nat ltac:(cbn [length]; lia)). cbn [nth] in H0.
  assert (Hb := Z.mod_pos_bound id n Hn). constructor.
  - rewrite !divisor_spec by lia. assert (G2 := cdiv_lt_succ L n (id mod n) ltac:(lia)). lia.
  - apply IH.
    + intros j Hj. apply (H (S j)). cbn [length]. lia.
    + split; [apply Z.div_pos; lia|apply Z.div_lt_upper_bound; lia].
Qed.

Section Rows.
Variable lat : lattice.
Hypothesis Hv : valid_lattice lat.
Hypothesis Hne : no_empty_rank lat.

Let mn (r : Z) := n_min (nodeinfo lat r).
Let sz (r : Z) := n_siz (nodeinfo lat r).
Let nd (j : nat) := nth j (n_divisions lat) 0.
Let Ls (j : nat) := nth j (l_size lat) 0.
Let dim := length (l_size lat).

Lemma rank_lengths : forall r, length (mn r) = dim /\ length (sz r) = dim.
Proof.
  intros r. assert (G := valid_grid lat Hv). unfold mn, sz. rewrite nodeinfo_min, nodeinfo_siz.
  split; [now apply node_min_length|now apply node_size_length].
Qed.

Lemma nd_range : forall j, (j < dim)%nat -> 0 < nd j <= Ls j.
Proof.
  intros j Hj. split; [|now apply Hne]. destruct Hv as (Hl & _ & Hp & _). unfold nd.
  rewrite Forall_forall in Hp. apply Hp. apply nth_In. unfold dim in Hj. lia.
Qed.

Lemma rank_sizes_pos : forall r, is_rank lat r -> Forall (fun s => 0 < s) (sz r).
Proof.
  intros r Hr. unfold sz. rewrite nodeinfo_siz. apply node_size_pos.
  - now apply valid_grid.
  - exact Hne.
  - destruct Hv as (_ & _ & _ & _ & Hi). now apply Hi.
Qed.

Lemma sz_pos : forall r j, is_rank lat r -> (j < dim)%nat -> 0 < nth j (sz r) 0.
Proof.
  intros r j Hr Hj. assert (H := rank_sizes_pos r Hr). rewrite Forall_forall in H. apply H. apply nth_In.
  rewrite (proj2 (rank_lengths r)). exact Hj.
Qed.

Lemma holds_min : forall r, is_rank lat r -> holds lat r (mn r).
Proof.
  intros r Hr. destruct (rank_lengths r) as [H1 H2]. unfold holds. unfold mn, sz in *. split; [reflexivity|]. split; [congruence|].
  intros j Hj. assert (G := sz_pos r j Hr ltac:(lia)). unfold sz in G. lia.
Qed.

Lemma rank_of_min : forall r, is_rank lat r -> r = node_rank lat (mn r).
Proof.
  intros r Hr. assert (Hh := holds_min r Hr).
  destruct (owner_unique lat (mn r) Hv (holds_is_site lat r _ Hv Hr Hh)) as [_ H]. apply H; assumption.
Qed.

(** Logical coordinate. *)
Definition kidx (j : nat) (r : Z) : Z := nth j (mn r) 0 * nd j / Ls j.

Lemma box_of_site : forall c j, is_site (l_size lat) c -> (j < dim)%nat ->
  nth j (mn (node_rank lat c)) 0 = cdiv (Ls j) (nd j) (nth j c 0 * nd j / Ls j) /\
  nth j (sz (node_rank lat c)) 0 = cdiv (Ls j) (nd j) (nth j c 0 * nd j / Ls j + 1) - cdiv (Ls j) (nd j) (nth j c 0 * nd j / Ls j).
Proof.
  intros c j Hc Hj. apply is_site_inside in Hc. assert (G := valid_grid lat Hv).
  unfold mn, sz. rewrite nodeinfo_min, nodeinfo_siz.
  assert (E : inverse_remap lat (node_rank lat c) = logical_node (l_size lat) (n_divisions lat) c).
  { destruct Hv as (_ & _ & _ & Hm & _). apply Hm. now apply logical_node_range. }
  rewrite E. apply nth_node_box; assumption.
Qed.

Lemma rank_component : forall r j, is_rank lat r -> (j < dim)%nat ->
  nth j (mn r) 0 = cdiv (Ls j) (nd j) (kidx j r) /\
  nth j (sz r) 0 = cdiv (Ls j) (nd j) (kidx j r + 1) - cdiv (Ls j) (nd j) (kidx j r) /\ 0 <= kidx j r < nd j.
Proof.
  intros r j Hr Hj. assert (Hs := holds_is_site lat r _ Hv Hr (holds_min r Hr)).
  assert (E := rank_of_min r Hr). destruct (box_of_site (mn r) j Hs Hj) as [H1 H2]. rewrite <- E in H1, H2.
  split; [exact H1|]. split; [exact H2|]. destruct Hs as [_ Hs]. specialize (Hs j Hj). assert (G := nd_range j Hj).
  unfold kidx. split; [apply Z.div_pos; unfold Ls; nia|apply Z.div_lt_upper_bound; unfold Ls in *; nia].
Qed.

(** ** The row of [r] along [dir] *)
Variable dir : nat.
Hypothesis Hdir : (dir < dim)%nat.

Let D (i : Z) := cdiv (Ls dir) (nd dir) i.

Definition qrank (r i : Z) : Z := node_rank lat (set_coord dir (cdiv (Ls dir) (nd dir) i) (mn r)).

Lemma set_site : forall r i, is_rank lat r -> 0 <= i < nd dir -> is_site (l_size lat) (set_coord dir (D i) (mn r)).
Proof.
  intros r i Hr Hi. destruct (holds_is_site lat r _ Hv Hr (holds_min r Hr)) as [H1 H2].
  split; [rewrite set_coord_length; exact H1|]. intros j Hj. rewrite nth_set_coord by (rewrite H1; exact Hdir).
  destruct (Nat.eqb_spec j dir) as [->|]; [|now apply H2]. apply cdiv_range; [now apply nd_range|exact Hi].
Qed.

Lemma row_rank : forall r i, is_rank lat r -> 0 <= i < nd dir ->
  is_rank lat (qrank r i) /\ mn (qrank r i) = set_coord dir (D i) (mn r) /\
  sz (qrank r i) = set_coord dir (D (i + 1) - D i) (sz r).
Proof.
  intros r i Hr Hi. assert (Hs := set_site r i Hr Hi). destruct (owner_unique lat _ Hv Hs) as [Hq _].
  split; [exact Hq|]. assert (G := nd_range dir Hdir).
  destruct (rank_lengths r) as [Lm Lz]. destruct (rank_lengths (qrank r i)) as [Lm' Lz'].
  assert (Hc : forall j, (j < dim)%nat ->
     nth j (mn (qrank r i)) 0 = nth j (set_coord dir (D i) (mn r)) 0 /\
     nth j (sz (qrank r i)) 0 = nth j (set_coord dir (D (i + 1) - D i) (sz r)) 0).
  { intros j Hj. destruct (box_of_site _ j Hs Hj) as [H1 H2]. fold (qrank r i) in *. unfold qrank. fold (D i). rewrite H1, H2.
    rewrite !nth_set_coord by lia. destruct (rank_component r j Hr Hj) as [H3 [H4 _]].
    destruct (Nat.eqb_spec j dir) as [->|Hn].
    - unfold D at 1 2 3 4. rewrite !(cdiv_index _ _ i G). split; reflexivity.
    - fold (kidx j r). rewrite <- H3. unfold kidx in *. lia. }
  split; apply list_ext; try (rewrite set_coord_length; lia); intros j Hj; apply Hc; lia.
Qed.

Lemma row_own : forall r, is_rank lat r -> qrank r (kidx dir r) = r.
Proof.
  intros r Hr. unfold qrank. destruct (rank_component r dir Hr Hdir) as [H1 _]. rewrite <- H1.
  rewrite set_coord_same by (rewrite (proj1 (rank_lengths r)); exact Hdir). symmetry. now apply rank_of_min.
Qed.

Lemma row_kidx : forall r i, is_rank lat r -> 0 <= i < nd dir -> kidx dir (qrank r i) = i.
Proof.
  intros r i Hr Hi. unfold kidx. rewrite (proj1 (proj2 (row_rank r i Hr Hi))), nth_set_coord, Nat.eqb_refl
    by (rewrite (proj1 (rank_lengths r)); exact Hdir). apply cdiv_index. now apply nd_range.
Qed.

Lemma row_same : forall r i j, is_rank lat r -> 0 <= i < nd dir -> qrank (qrank r i) j = qrank r j.
Proof.
  intros r i j Hr Hi. unfold qrank at 1. rewrite (proj1 (proj2 (row_rank r i Hr Hi))). now rewrite set_coord_twice.
Qed.

Lemma row_inj : forall r i j, is_rank lat r -> 0 <= i < nd dir -> 0 <= j < nd dir -> qrank r i = qrank r j -> i = j.
Proof. intros r i j Hr Hi Hj E. rewrite <- (row_kidx r i Hr Hi), <- (row_kidx r j Hr Hj). now rewrite E. Qed.

Lemma row_is : forall r i, is_rank lat r -> 0 <= i < nd dir -> (qrank r i = r <-> i = kidx dir r).
Proof.
  intros r i Hr Hi. split.
  - intros E. rewrite <- (row_kidx r i Hr Hi). now rewrite E.
  - intros ->. now apply row_own.
Qed.

(** ** The entries found by the search *)
Lemma same_column_spec : forall d a b, length a = length b ->
  (same_column d a b = true <-> forall j, (j < length a)%nat -> j <> d -> nth j a 0 = nth j b 0).
Proof.
  intros d a. revert d. induction a as [|x a IH]; intros d b Hl; destruct b as [|y b]; try discriminate.
  - split; [intros _ j Hj; cbn in Hj; lia|destruct d; reflexivity].
  - cbn [length] in Hl. destruct d as [|d]; cbn [same_column].
    + rewrite forallb_forall. split.
      * intros H j Hj Hd. destruct j as [|j]; [lia|]. cbn [length nth] in *.
        specialize (H (nth j a 0, nth j b 0)). cbn [fst snd] in H. apply Z.eqb_eq, H.
        rewrite <- combine_nth by lia. apply nth_In. rewrite combine_length. lia.
      * intros H q Hq. destruct (In_nth (combine a b) q (0, 0) Hq) as [j [Hj E]]. rewrite combine_length in Hj. rewrite combine_nth in E by lia.
        subst q. cbn [fst snd]. apply Z.eqb_eq. apply (H (S j)); [cbn [length]; lia|lia].
    + rewrite Bool.andb_true_iff, Z.eqb_eq, (IH d b ltac:(lia)). split.
      * intros [H1 H2] j Hj Hd. destruct j as [|j]; [exact H1|]. cbn [length nth] in *. apply H2; lia.
      * intros H. split; [apply (H 0%nat); cbn [length]; lia|]. intros j Hj Hd. apply (H (S j)); cbn [length]; lia.
Qed.

Lemma fold_unique : forall (B : Type) (P : Z -> bool) (g : Z -> B) q l acc,
  (forall k, In k l -> P k = (k =? q)) ->
  fold_left (fun acc k => if P k then Some (g k) else acc) l acc = if existsb (Z.eqb q) l then Some (g q) else acc.
Proof.
  intros B P g q l. induction l as [|k l IH]; intros acc H; [reflexivity|].
  cbn [fold_left existsb]. rewrite IH by (intros k' Hk'; apply H; now right). rewrite (H k) by now left.
  rewrite (Z.eqb_sym q k). destruct (Z.eqb_spec k q) as [->|E]; [|reflexivity]. cbn [orb]. now destruct (existsb _ l).
Qed.

Lemma row_entry_spec : forall r i, is_rank lat r -> 0 <= i < nd dir ->
  row_entry lat r dir i = Some (qrank r i, D (i + 1) - D i).
Proof.
  intros r i Hr Hi. destruct (row_rank r i Hr Hi) as (Hq & Hm & Hs). assert (G := nd_range dir Hdir).
  unfold row_entry. fold (Ls dir) (nd dir).
  rewrite (fold_unique _ (fun k => same_column dir (n_min (nodeinfo lat k)) (n_min (nodeinfo lat r)) &&
              (nth dir (n_min (nodeinfo lat k)) 0 =? divisor (Ls dir) (nd dir) i))
            (fun k => (k, nth dir (n_siz (nodeinfo lat k)) 0)) (qrank r i)).
  - rewrite (proj2 (existsb_exists (Z.eqb (qrank r i)) _)).
    + fold (sz (qrank r i)). rewrite Hs, nth_set_coord, Nat.eqb_refl by (rewrite (proj2 (rank_lengths r)); exact Hdir). reflexivity.
    + exists (qrank r i). split; [|apply Z.eqb_refl]. apply zrange_In. unfold is_rank in Hq. lia.
  - intros k Hk. apply zrange_In in Hk. assert (Hkr : is_rank lat k) by (unfold is_rank; lia).
    fold (mn k) (mn r). destruct (rank_lengths k) as [Lk _]. destruct (rank_lengths r) as [Lr _].
    assert (Eq : mn k = set_coord dir (D i) (mn r) <-> same_column dir (mn k) (mn r) = true /\ nth dir (mn k) 0 = D i).
    { rewrite same_column_spec by lia. split.
      - intros ->. split; [|rewrite nth_set_coord, Nat.eqb_refl by lia; reflexivity].
        intros j Hj Hn. rewrite nth_set_coord by lia. destruct (Nat.eqb_spec j dir); [lia|reflexivity].
      - intros [H1 H2]. apply list_ext; [rewrite set_coord_length; lia|]. intros j Hj. rewrite nth_set_coord by lia.
        destruct (Nat.eqb_spec j dir) as [->|Hn]; [exact H2|now apply H1]. }
    rewrite divisor_spec by lia. fold (D i). destruct (Z.eqb_spec k (qrank r i)) as [->|Hn].
    + destruct (proj1 Eq Hm) as [-> ->]. now rewrite Z.eqb_refl.
    + apply Bool.not_true_iff_false. rewrite Bool.andb_true_iff, Z.eqb_eq. intros H. apply Eq in H. apply Hn.
      rewrite (rank_of_min k Hkr). unfold qrank. fold (D i). now rewrite H.
Qed.

(** The number of columns, and the first column of entry [i]. *)
Definition cols (r : Z) : Z := tot dir (sz r).
Definition cb (r i : Z) : Z := i * cols r / nd dir.

Lemma cols_pos : forall r, is_rank lat r -> 0 < cols r.
Proof. intros r Hr. apply tot_pos. now apply rank_sizes_pos. Qed.

Lemma volume_cols : forall r, is_rank lat r -> volume (nodeinfo lat r) = cols r * nth dir (sz r) 0.
Proof.
  intros r Hr. rewrite rank_volume by assumption. fold (sz r). apply tot_zprod. rewrite (proj2 (rank_lengths r)). exact Hdir.
Qed.

Definition pencil_of (r i : Z) : pencil :=
  mkPencil (qrank r i) (cdiv (Ls dir) (nd dir) (i + 1) - cdiv (Ls dir) (nd dir) i) (cb r i * nth dir (sz r) 0) (cb r (i + 1) - cb r i).

Lemma pencil_row_spec : forall r, is_rank lat r ->
  pencil_row lat r dir = Some (map (pencil_of r) (zrange 0 (Z.to_nat (nd dir)))).
Proof.
  intros r Hr. assert (Hs := sz_pos r dir Hr Hdir). unfold pencil_row. fold (sz r).
  destruct (Z.eqb_spec (nth dir (sz r) 0) 0) as [E|_]; [lia|]. apply all_some_map.
  intros i Hi. apply zrange_In in Hi. fold (nd dir) in Hi. unfold make_pencil. rewrite row_entry_spec by (assumption || lia).
  rewrite volume_cols by exact Hr. fold (sz r) (nd dir). rewrite Z.div_mul by lia. unfold pencil_of. do 2 f_equal.
  unfold cb. rewrite Z.div_mul by lia. reflexivity.
Qed.

Lemma cb_0 : forall r, cb r 0 = 0.
Proof. intros r. unfold cb. rewrite Z.mul_0_l. assert (G := nd_range dir Hdir). apply Z.div_0_l. lia. Qed.
Lemma cb_n : forall r, cb r (nd dir) = cols r.
Proof. intros r. unfold cb. rewrite Z.mul_comm. assert (G := nd_range dir Hdir). apply Z.div_mul. lia. Qed.
Lemma cb_le : forall r i j, is_rank lat r -> i <= j -> cb r i <= cb r j.
Proof. intros r i j Hr H. assert (G := nd_range dir Hdir). assert (G2 := cols_pos r Hr). unfold cb. apply Z.div_le_mono; nia. Qed.

Lemma row_cols : forall r i, is_rank lat r -> 0 <= i < nd dir -> cols (qrank r i) = cols r.
Proof. intros r i Hr Hi. unfold cols. rewrite (proj2 (proj2 (row_rank r i Hr Hi))). apply tot_row. Qed.
Lemma row_cb : forall r i j, is_rank lat r -> 0 <= i < nd dir -> cb (qrank r i) j = cb r j.
Proof. intros r i j Hr Hi. unfold cb. now rewrite row_cols. Qed.
Lemma row_size : forall r i, is_rank lat r -> 0 <= i < nd dir -> nth dir (sz (qrank r i)) 0 = D (i + 1) - D i.
Proof.
  intros r i Hr Hi. rewrite (proj2 (proj2 (row_rank r i Hr Hi))), nth_set_coord, Nat.eqb_refl; [reflexivity|].
  rewrite (proj2 (rank_lengths r)). exact Hdir.
Qed.

Lemma cb_search : forall r m, is_rank lat r -> 0 <= m < cols r -> exists i, 0 <= i < nd dir /\ cb r i <= m < cb r (i + 1).
Proof.
  intros r m Hr Hm. assert (forall n : nat, m < cb r (Z.of_nat n) -> exists i, 0 <= i < Z.of_nat n /\ cb r i <= m < cb r (i + 1)) as H.
  { induction n as [|n IH]; intros H; [rewrite cb_0 in H; lia|].
    destruct (Z_lt_le_dec m (cb r (Z.of_nat n))) as [E|E].
    - destruct (IH E) as [i [Hi1 Hi2]]. exists i. split; [lia|exact Hi2].
    - exists (Z.of_nat n). split; [lia|]. replace (Z.of_nat n + 1) with (Z.of_nat (S n)) by lia. lia. }
  assert (G := nd_range dir Hdir). destruct (H (Z.to_nat (nd dir))) as [i Hi].
  - rewrite Z2Nat.id, cb_n by lia. lia.
  - exists i. rewrite Z2Nat.id in Hi by lia. exact Hi.
Qed.

(** ** The derived numbers *)
Definition mycols (r : Z) : Z := cb r (kidx dir r + 1) - cb r (kidx dir r).

Lemma my_columns_spec : forall r, is_rank lat r ->
  my_columns r (map (pencil_of r) (zrange 0 (Z.to_nat (nd dir)))) = mycols r.
Proof.
  intros r Hr. unfold my_columns. destruct (rank_component r dir Hr Hdir) as (_ & _ & Hk).
  assert (forall n a acc, 0 <= a -> a + Z.of_nat n <= nd dir ->
    fold_left (fun acc p => if p_node p =? r then p_number p else acc) (map (pencil_of r) (zrange a n)) acc
    = if (a <=? kidx dir r) && (kidx dir r <? a + Z.of_nat n) then mycols r else acc) as H.
  { induction n as [|n IH]; intros a acc H1 H2.
    - cbn [zrange map fold_left]. destruct (Z.leb_spec a (kidx dir r)), (Z.ltb_spec (kidx dir r) (a + Z.of_nat 0)); try reflexivity; lia.
    - cbn [zrange map fold_left]. rewrite IH by lia. cbn [pencil_of p_node p_number].
      assert (Hi := row_is r a Hr ltac:(lia)). destruct (Z.eqb_spec (qrank r a) r) as [E|E].
      + apply Hi in E. subst a. unfold mycols.
        destruct (Z.leb_spec (kidx dir r + 1) (kidx dir r)), (Z.leb_spec (kidx dir r) (kidx dir r)), (Z.ltb_spec (kidx dir r) (kidx dir r + Z.of_nat (S n))); try lia.
        reflexivity.
      + destruct (Z.leb_spec (a + 1) (kidx dir r)), (Z.leb_spec a (kidx dir r)),
          (Z.ltb_spec (kidx dir r) (a + 1 + Z.of_nat n)), (Z.ltb_spec (kidx dir r) (a + Z.of_nat (S n))); try lia; try reflexivity. }
  rewrite H by lia. rewrite Z2Nat.id by lia. destruct (Z.leb_spec 0 (kidx dir r)), (Z.ltb_spec (kidx dir r) (0 + nd dir)); try lia. reflexivity.
Qed.

Lemma mycols_nonneg : forall r, is_rank lat r -> 0 <= mycols r.
Proof. intros r Hr. unfold mycols. assert (G := cb_le r (kidx dir r) (kidx dir r + 1) Hr ltac:(lia)). lia. Qed.

(** Position of the data of entry [i] in the receive buffer, for one column of length 1
    and one element. *)
Definition rpos (r i : Z) : Z := if i <=? kidx dir r then D i else D i - nth dir (sz r) 0.
Definition ptr (E r i : Z) : bool * Z * Z :=
  if i =? kidx dir r then (true, cb r i * nth dir (sz r) 0 * E, D (i + 1) - D i)
  else (false, mycols r * E * rpos r i, D (i + 1) - D i).

Lemma own_size : forall r, is_rank lat r -> nth dir (sz r) 0 = D (kidx dir r + 1) - D (kidx dir r).
Proof. intros r Hr. apply (rank_component r dir Hr Hdir). Qed.

Lemma rpos_next : forall r i, is_rank lat r -> rpos r (i + 1) = rpos r i + if i =? kidx dir r then 0 else D (i + 1) - D i.
Proof.
  intros r i Hr. assert (H := own_size r Hr). unfold rpos.
  destruct (Z.leb_spec (i + 1) (kidx dir r)), (Z.leb_spec i (kidx dir r)), (Z.eqb_spec i (kidx dir r)) as [E|E]; try lia.
  rewrite <- E in H. lia.
Qed.

Lemma D_lt : forall i, D i < D (i + 1).
Proof. intros i. apply cdiv_lt_succ. now apply nd_range. Qed.

Lemma rpos_le : forall r i j, is_rank lat r -> i <= j -> rpos r i <= rpos r j.
Proof.
  intros r i j Hr H. replace j with (i + Z.of_nat (Z.to_nat (j - i))) by lia. induction (Z.to_nat (j - i)) as [|k IH].
  - now rewrite Z.add_0_r.
  - assert (G := rpos_next r (i + Z.of_nat k) Hr). assert (G2 := D_lt (i + Z.of_nat k)).
    replace (i + Z.of_nat (S k)) with (i + Z.of_nat k + 1) by lia. destruct (i + Z.of_nat k =? kidx dir r); lia.
Qed.

Lemma rpos_0 : forall r, is_rank lat r -> rpos r 0 = 0.
Proof.
  intros r Hr. unfold rpos. destruct (rank_component r dir Hr Hdir) as (_ & _ & Hk).
  destruct (Z.leb_spec 0 (kidx dir r)); [|lia]. apply cdiv_0.
Qed.

Lemma rec_ptrs_spec : forall E r, is_rank lat r ->
  rec_ptrs E r (mycols r) 0 (map (pencil_of r) (zrange 0 (Z.to_nat (nd dir)))) = map (ptr E r) (zrange 0 (Z.to_nat (nd dir))).
Proof.
  intros E r Hr. assert (forall n a, 0 <= a -> a + Z.of_nat n <= nd dir ->
    rec_ptrs E r (mycols r) (mycols r * E * rpos r a) (map (pencil_of r) (zrange a n)) = map (ptr E r) (zrange a n)) as H.
  { induction n as [|n IH]; intros a H1 H2; [reflexivity|]. cbn [zrange map rec_ptrs pencil_of p_node p_size p_offset].
    assert (Hn := rpos_next r a Hr). assert (Hi := row_is r a Hr ltac:(lia)). unfold ptr at 1.
    destruct (Z.eqb_spec (qrank r a) r) as [Eq|Eq], (Z.eqb_spec a (kidx dir r)) as [Ea|Ea]; try (exfalso; tauto).
    - f_equal. rewrite <- (IH (a + 1)) by lia. f_equal. rewrite Hn. lia.
    - f_equal. rewrite <- (IH (a + 1)) by lia. f_equal. rewrite Hn. unfold D. lia. }
  assert (G := nd_range dir Hdir). rewrite <- H by lia. f_equal. rewrite rpos_0 by exact Hr. lia.
Qed.

Lemma rpos_n : forall r, is_rank lat r -> rpos r (nd dir) = Ls dir - nth dir (sz r) 0.
Proof.
  intros r Hr. unfold rpos. destruct (rank_component r dir Hr Hdir) as (_ & _ & Hk).
  destruct (Z.leb_spec (nd dir) (kidx dir r)); [lia|]. assert (G := nd_range dir Hdir). unfold D. rewrite cdiv_n by lia. reflexivity.
Qed.

Lemma recv_size_spec : forall r, is_rank lat r ->
  recv_buf_size r (map (pencil_of r) (zrange 0 (Z.to_nat (nd dir)))) = mycols r * rpos r (nd dir).
Proof.
  intros r Hr. unfold recv_buf_size. rewrite my_columns_spec by exact Hr. rewrite map_map.
  assert (forall n, Z.of_nat n <= nd dir ->
    zsum (map (fun x => if p_node (pencil_of r x) =? r then 0 else mycols r * p_size (pencil_of r x)) (zrange 0 n)) = mycols r * rpos r (Z.of_nat n)) as H.
  { induction n as [|n IH]; intros Hn; [cbn [zrange map zsum fold_right]; change (Z.of_nat 0) with 0; rewrite rpos_0 by exact Hr; lia|].
    rewrite zrange_S_r, map_app, zsum_app, IH by lia. cbn [map zsum fold_right pencil_of p_node p_size].
    replace (Z.of_nat (S n)) with (Z.of_nat n + 1) by lia. rewrite rpos_next by exact Hr. rewrite !Z.add_0_l.
    assert (Hi := row_is r (Z.of_nat n) Hr ltac:(lia)).
    destruct (Z.eqb_spec (qrank r (Z.of_nat n)) r) as [Eq|Eq], (Z.eqb_spec (Z.of_nat n) (kidx dir r)) as [Ea|Ea]; try (exfalso; tauto); unfold D; ring. }
  assert (G := nd_range dir Hdir). rewrite H by lia. rewrite Z2Nat.id by lia. reflexivity.
Qed.
End Rows.
