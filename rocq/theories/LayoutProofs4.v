(** Geometry of faces: the sites whose neighbour is off node, on the receiving
    and on the sending side. *)
From Verif Require Import Common LayoutModel LayoutSpec LayoutProofs1 LayoutProofs2.

(** ** Updating one list position *)

Fixpoint upd_at {A} (k : nat) (f : A -> A) (c : list A) : list A :=
  match c, k with
  | [], _ => []
  | x :: c', O => f x :: c'
  | x :: c', S k' => x :: upd_at k' f c'
  end.

Lemma upd_at_length : forall A k (f : A -> A) c, length (upd_at k f c) = length c.
Proof. induction k; destruct c; simpl; auto. Qed.

Lemma nth_upd_at : forall A k (f : A -> A) c j d, (k < length c)%nat ->
  nth j (upd_at k f c) d = if (j =? k)%nat then f (nth k c d) else nth j c d.
Proof.
  induction k; destruct c; simpl; intros; try lia.
  - destruct j; auto.
  - destruct j; auto. rewrite IHk by lia. auto.
Qed.

Lemma add_at_upd : forall k v c, add_at k v c = upd_at k (fun x => x + v) c.
Proof. induction k; destruct c; simpl; auto. rewrite IHk. auto. Qed.

Lemma add_at_length : forall k v c, length (add_at k v c) = length c.
Proof. intros. rewrite add_at_upd. apply upd_at_length. Qed.

Lemma cmod_length : forall c m, length c = length m -> length (cmod c m) = length c.
Proof. induction c; destruct m; simpl; intros; auto; try discriminate. Qed.

Lemma nth_cmod : forall c m j, length c = length m -> (j < length c)%nat ->
  Forall (fun x => 0 < x) m -> nth j (cmod c m) 0 = nth j c 0 mod nth j m 0.
Proof.
  induction c; destruct m; simpl; intros j Hl Hj Hm; try lia. inversion Hm; subst.
  destruct j.
  - apply pmod_spec. auto.
  - apply IHc; auto; lia.
Qed.

(** ** Directions as axis and sign *)

Definition axis (ndim : nat) (d : Z) : nat := Z.to_nat (abs_dir (Z.of_nat ndim) d).
Definition sgn (ndim : nat) (d : Z) : Z := if is_up_dir (Z.of_nat ndim) d then 1 else -1.

Lemma axis_lt : forall n d, 0 <= d < 2 * Z.of_nat n -> (axis n d < n)%nat.
Proof.
  intros. unfold axis, abs_dir, is_up_dir, opp_dir. destruct (Z.ltb_spec d (Z.of_nat n)); lia.
Qed.

Lemma axis_opp : forall n d, 0 <= d < 2 * Z.of_nat n -> axis n (opp_dir (Z.of_nat n) d) = axis n d.
Proof.
  intros. unfold axis, abs_dir, is_up_dir, opp_dir.
  destruct (Z.ltb_spec d (Z.of_nat n)), (Z.ltb_spec (2 * Z.of_nat n - 1 - d) (Z.of_nat n)); lia.
Qed.

Lemma sgn_opp : forall n d, 0 <= d < 2 * Z.of_nat n -> sgn n (opp_dir (Z.of_nat n) d) = - sgn n d.
Proof.
  intros. unfold sgn, is_up_dir, opp_dir.
  destruct (Z.ltb_spec d (Z.of_nat n)), (Z.ltb_spec (2 * Z.of_nat n - 1 - d) (Z.of_nat n)); lia.
Qed.

Lemma sgn_cases : forall n d, sgn n d = 1 \/ sgn n d = -1.
Proof. intros. unfold sgn. destruct (is_up_dir _ _); auto. Qed.

Lemma opp_dir_range : forall n d, 0 <= d < 2 * n -> 0 <= opp_dir n d < 2 * n.
Proof. unfold opp_dir. lia. Qed.

Lemma add_dir_axis : forall c d, 0 <= d < 2 * Z.of_nat (length c) ->
  add_dir c d = add_at (axis (length c) d) (sgn (length c) d) c.
Proof.
  intros. unfold add_dir, axis, sgn, abs_dir. destruct (is_up_dir _ d); auto.
Qed.

Lemma displacement_axis : forall n d j, 0 <= d < 2 * Z.of_nat n -> (j < n)%nat ->
  displacement (Z.of_nat n) d j = if (j =? axis n d)%nat then sgn n d else 0.
Proof.
  intros n d j Hd Hj. unfold displacement, axis, sgn, abs_dir, is_up_dir, opp_dir.
  destruct (Z.ltb_spec d (Z.of_nat n)); destruct (Z.eqb_spec d (Z.of_nat j));
    destruct (Z.eqb_spec d (2 * Z.of_nat n - 1 - Z.of_nat j));
    destruct (Nat.eqb_spec j (Z.to_nat d)); destruct (Nat.eqb_spec j (Z.to_nat (2 * Z.of_nat n - 1 - d))); lia.
Qed.

Section Neighbour.
  Variable ls : list Z.
  Hypothesis Hpos : Forall (fun x => 0 < x) ls.
  Variable d : Z.
  Hypothesis Hd : is_direction ls d.

  Let a := axis (length ls) d.
  Let s := sgn (length ls) d.
  Let La := nth a ls 0.

  Definition shift1 (x : Z) : Z := (x + s) mod La.

  Lemma La_pos : 0 < La.
  Proof.
    unfold La. apply (Forall_nth (fun x => 0 < x) ls); auto. apply axis_lt. auto.
  Qed.

  Lemma nbr_upd : forall c, is_site ls c -> cmod (add_dir c d) ls = upd_at a shift1 c.
  Proof.
    intros c [Hl Hc]. rewrite add_dir_axis by (rewrite Hl; auto). rewrite Hl. fold a s.
    assert (Ha : (a < length ls)%nat) by (apply axis_lt; auto).
    apply nth_ext with (d := 0) (d' := 0).
    - rewrite cmod_length, add_at_length, upd_at_length; rewrite ?add_at_length; auto.
    - rewrite cmod_length by (rewrite add_at_length; auto). rewrite add_at_length. intros j Hj.
      rewrite nth_cmod by (rewrite ?add_at_length; auto).
      rewrite add_at_upd, !nth_upd_at by lia.
      destruct (Nat.eqb_spec j a) as [->|].
      + reflexivity.
      + apply Z.mod_small. apply Hc. lia.
  Qed.

  Lemma nbr_site : forall c, is_site ls c -> is_site ls (cmod (add_dir c d) ls).
  Proof.
    intros c Hc. rewrite nbr_upd by auto. destruct Hc as [Hl Hc].
    assert (Ha : (a < length ls)%nat) by (apply axis_lt; auto).
    split; [rewrite upd_at_length; auto|]. intros j Hj. rewrite nth_upd_at by lia.
    destruct (Nat.eqb_spec j a) as [->|]; auto. apply Z.mod_pos_bound. apply La_pos.
  Qed.

  Lemma nbr_periodic : forall c, is_site ls c ->
    forall c', periodic_neighbour ls c d c' <-> c' = cmod (add_dir c d) ls.
  Proof.
    intros c Hc c'. rewrite nbr_upd by auto. destruct Hc as [Hl Hc].
    assert (Ha : (a < length ls)%nat) by (apply axis_lt; auto).
    assert (Hnth : forall j, (j < length ls)%nat -> nth j (upd_at a shift1 c) 0 =
       (nth j c 0 + displacement (Z.of_nat (length ls)) d j) mod nth j ls 0).
    { intros j Hj. rewrite displacement_axis by auto. fold a s. rewrite nth_upd_at by lia.
      destruct (Nat.eqb_spec j a) as [->|]; auto. rewrite Z.add_0_r.
      symmetry. apply Z.mod_small. auto. }
    unfold periodic_neighbour. split.
    - intros (_ & Hl' & Hn). apply nth_ext with (d := 0) (d' := 0).
      + rewrite upd_at_length. lia.
      + intros j Hj. rewrite Hn, Hnth by lia. auto.
    - intros ->. rewrite upd_at_length. auto.
  Qed.
End Neighbour.

Lemma mod_up_down : forall x t L, 0 < L -> 0 <= x < L -> ((x + t) mod L - t) mod L = x.
Proof.
  intros. rewrite Zminus_mod_idemp_l. replace (x + t - t) with x by ring. apply Z.mod_small; auto.
Qed.

Lemma nbr_opp_inverse : forall ls d c, Forall (fun x => 0 < x) ls -> is_direction ls d -> is_site ls c ->
  cmod (add_dir (cmod (add_dir c d) ls) (opp_dir (Z.of_nat (length ls)) d)) ls = c.
Proof.
  intros ls d c Hp Hd Hc.
  assert (Hd' : is_direction ls (opp_dir (Z.of_nat (length ls)) d)) by (apply opp_dir_range; auto).
  rewrite nbr_upd by (auto; apply nbr_site; auto). rewrite nbr_upd by auto.
  unfold shift1. rewrite axis_opp, sgn_opp by auto.
  assert (Ha : (axis (length ls) d < length ls)%nat) by (apply axis_lt; auto).
  destruct Hc as [Hl Hc].
  apply nth_ext with (d := 0) (d' := 0).
  - rewrite !upd_at_length. auto.
  - rewrite !upd_at_length. intros j Hj. rewrite !nth_upd_at by (rewrite ?upd_at_length; lia).
    rewrite Nat.eqb_refl.
    destruct (Nat.eqb_spec j (axis (length ls) d)) as [->|]; auto.
    replace (nth (axis (length ls) d) c 0 + sgn (length ls) d) with (nth (axis (length ls) d) c 0 + sgn (length ls) d) by ring.
    rewrite Z.add_opp_r. apply mod_up_down.
    + apply (La_pos ls Hp d Hd).
    + apply Hc. lia.
Qed.

(** ** Products of lists and one-axis filters and maps *)

Lemma prodl_map_axis : forall f a ls, (a < length ls)%nat ->
  map (upd_at a f) (prodl ls) = prodl (upd_at a (map f) ls).
Proof.
  induction a; destruct ls; simpl; intros; try lia.
  - rewrite map_flat_map. apply flat_map_ext. intros. rewrite !map_map. auto.
  - rewrite <- IHa by lia. rewrite map_flat_map, flat_map_map. apply flat_map_ext. intros.
    rewrite map_map. auto.
Qed.

Lemma filter_flat_map : forall A B (p : B -> bool) (f : A -> list B) l,
  filter p (flat_map f l) = flat_map (fun x => filter p (f x)) l.
Proof. induction l; simpl; auto. rewrite filter_app, IHl. auto. Qed.

Lemma flat_map_nil : forall A B (l : list A), flat_map (fun _ => @nil B) l = [].
Proof. induction l; simpl; auto. Qed.

Lemma filter_rows : forall (p : list Z -> bool) l (R : list (list Z)),
  (forall x r, p (x :: r) = p (0 :: r)) ->
  filter p (flat_map (fun r => map (fun x => x :: r) l) R) =
  flat_map (fun r => map (fun x => x :: r) l) (filter (fun r => p (0 :: r)) R).
Proof.
  intros p l R Hp. induction R as [|r R IH]; simpl; auto.
  rewrite filter_app, IH. destruct (p (0 :: r)) eqn:E; simpl.
  - f_equal. apply filter_all. intros c Hc. apply in_map_iff in Hc. destruct Hc as (x & <- & _).
    rewrite Hp. auto.
  - rewrite filter_none; auto. intros c Hc. apply in_map_iff in Hc. destruct Hc as (x & <- & _).
    rewrite Hp. auto.
Qed.

Lemma prodl_filter_axis : forall p a ls, (a < length ls)%nat ->
  filter (fun c => p (nth a c 0)) (prodl ls) = prodl (upd_at a (filter p) ls).
Proof.
  induction a; destruct ls; cbn [length prodl upd_at]; intros; try lia.
  - rewrite filter_flat_map. apply flat_map_ext. intros r. rewrite filter_map. auto.
  - rewrite filter_rows by auto. cbn [nth]. rewrite IHa by lia. auto.
Qed.

(** ** One-dimensional faces *)

Definition off_iv (m sz L t x : Z) : bool :=
  negb ((0 <=? (x + t) mod L - m) && ((x + t) mod L - m <? sz)).

Lemma filter_singleton_last : forall (p : Z -> bool) n m,
  (forall x, m <= x < m + Z.of_nat n - 1 -> p x = false) -> (0 < n)%nat ->
  p (m + Z.of_nat n - 1) = true -> filter p (zrange m n) = [m + Z.of_nat n - 1].
Proof.
  induction n; intros m Hf Hn Hl; [lia|]. destruct n.
  - cbn [zrange filter]. replace (m + Z.of_nat 1 - 1) with m in * by lia. rewrite Hl. auto.
  - change (zrange m (S (S n))) with (m :: zrange (m + 1) (S n)). cbn [filter].
    rewrite (Hf m) by lia. rewrite IHn.
    + f_equal. lia.
    + intros. apply Hf. lia.
    + lia.
    + rewrite <- Hl. f_equal. lia.
Qed.

Lemma filter_singleton_first : forall (p : Z -> bool) n m,
  (forall x, m < x < m + Z.of_nat n -> p x = false) -> (0 < n)%nat ->
  p m = true -> filter p (zrange m n) = [m].
Proof.
  intros p n m Hf Hn Hm. destruct n; [lia|]. cbn [zrange filter]. rewrite Hm. f_equal.
  apply filter_none. intros x Hx. apply zrange_In in Hx. apply Hf. lia.
Qed.

(** Two disjoint intervals with x in the first and x+1 (periodic) in the second:
    x is the only site of the first whose upper neighbour is outside, x+1 the
    only site of the second whose lower neighbour is outside. *)
Lemma face_1d : forall L m s m' s' x, 0 < L ->
  0 <= m -> m + s <= L -> 0 <= m' -> m' + s' <= L ->
  (forall z, m <= z < m + s -> m' <= z < m' + s' -> False) ->
  m <= x < m + s -> m' <= (x + 1) mod L < m' + s' ->
  filter (off_iv m s L 1) (zrange m (Z.to_nat s)) = [x] /\
  filter (off_iv m' s' L (-1)) (zrange m' (Z.to_nat s')) = [(x + 1) mod L].
Proof.
  intros L m s m' s' x HL H1 H2 H3 H4 Hdis Hx Hy.
  assert (Hxlast : x = m + s - 1).
  { destruct (Z.eq_dec x (m + s - 1)); auto. exfalso.
    rewrite Z.mod_small in Hy by lia. apply (Hdis (x + 1)); lia. }
  assert (Hyfirst : (x + 1) mod L = m').
  { destruct (Z.eq_dec (x + 1) L) as [E|E].
    - rewrite E, Z_mod_same_full in *. lia.
    - rewrite Z.mod_small in * by lia. destruct (Z.eq_dec (x + 1) m'); auto. exfalso.
      apply (Hdis x); lia. }
  split.
  - replace x with (m + Z.of_nat (Z.to_nat s) - 1) by lia.
    apply filter_singleton_last; [|lia|].
    + intros z Hz. unfold off_iv. rewrite Z.mod_small by lia. lia.
    + unfold off_iv. replace (m + Z.of_nat (Z.to_nat s) - 1) with x by lia.
      destruct ((0 <=? (x + 1) mod L - m) && ((x + 1) mod L - m <? s)) eqn:E; auto.
      exfalso. apply (Hdis ((x + 1) mod L)); lia.
  - rewrite Hyfirst. apply filter_singleton_first; [|lia|].
    + intros z Hz. unfold off_iv. rewrite Z.mod_small by lia. lia.
    + unfold off_iv. rewrite <- Hyfirst.
      replace ((x + 1) mod L + -1) with ((x + 1) mod L - 1) by ring.
      rewrite mod_up_down by lia. rewrite Hyfirst.
      destruct ((0 <=? x - m') && (x - m' <? s')) eqn:E; auto. exfalso. apply (Hdis x); lia.
Qed.

(** The face of the receiver maps onto the face of the sender, for a step of
    t = +1 or -1. *)
Lemma face_map_1d : forall L m s m' s' t x, 0 < L -> t = 1 \/ t = -1 ->
  0 <= m -> m + s <= L -> 0 <= m' -> m' + s' <= L ->
  (forall z, m <= z < m + s -> m' <= z < m' + s' -> False) ->
  m <= x < m + s -> m' <= (x + t) mod L < m' + s' ->
  map (fun z => (z + t) mod L) (filter (off_iv m s L t) (zrange m (Z.to_nat s))) =
  filter (off_iv m' s' L (- t)) (zrange m' (Z.to_nat s')) /\
  filter (off_iv m s L t) (zrange m (Z.to_nat s)) = [x].
Proof.
  intros L m s m' s' t x HL [ -> | -> ] H1 H2 H3 H4 Hdis Hx Hy.
  - destruct (face_1d L m s m' s' x) as [E1 E2]; auto. rewrite E1. cbn [map Z.opp].
    rewrite E2. auto.
  - assert (Hxx : ((x + -1) mod L + 1) mod L = x).
    { replace ((x + -1) mod L + 1) with ((x + -1) mod L - -1) by ring. apply mod_up_down; lia. }
    destruct (face_1d L m' s' m s ((x + -1) mod L)) as [E1 E2]; auto.
    + intros z Ha Hb. apply (Hdis z); auto.
    + rewrite Hxx. auto.
    + rewrite Hxx in E2. rewrite E2. cbn [map Z.opp]. rewrite E1. auto.
Qed.

(** ** Boxes of the ranks, per axis *)

Lemma nth_box_ranges : forall mn sz j, length mn = length sz -> (j < length mn)%nat ->
  nth j (box_ranges mn sz) [] = zrange (nth j mn 0) (Z.to_nat (nth j sz 0)).
Proof.
  induction mn; destruct sz; simpl; intros; try lia. destruct j; auto. apply IHmn; lia.
Qed.

Lemma box_ranges_length : forall mn sz, length mn = length sz -> length (box_ranges mn sz) = length mn.
Proof. induction mn; destruct sz; simpl; intros; auto; discriminate. Qed.

Lemma nth_node_box : forall ls nd c j, grid ls nd -> inside ls c -> (j < length ls)%nat ->
  nth j (node_min ls nd (logical_node ls nd c)) 0 =
    cdiv (nth j ls 0) (nth j nd 0) (nth j c 0 * nth j nd 0 / nth j ls 0) /\
  nth j (node_size ls nd (logical_node ls nd c)) 0 =
    cdiv (nth j ls 0) (nth j nd 0) (nth j c 0 * nth j nd 0 / nth j ls 0 + 1) -
    cdiv (nth j ls 0) (nth j nd 0) (nth j c 0 * nth j nd 0 / nth j ls 0).
Proof.
  intros ls nd c j Hg. revert c j. induction Hg; intros c j Hc Hj; [simpl in Hj; lia|].
  inversion Hc; subst. cbn [logical_node node_min node_size].
  assert (Hx : 0 <= y * n / L < n)
    by (split; [apply Z.div_pos; nia|apply Z.div_lt_upper_bound; nia]).
  assert (Em : (logical_node ls nd l' * n + y * n / L) mod n = y * n / L).
  { rewrite Z.add_comm, Z.mod_add by lia. apply Z.mod_small; lia. }
  assert (Ed : (logical_node ls nd l' * n + y * n / L) / n = logical_node ls nd l').
  { rewrite Z.add_comm, Z.div_add by lia. rewrite Z.div_small; lia. }
  rewrite Em, Ed. rewrite !divisor_spec by lia. destruct j; cbn [nth]; [lia|].
  apply IHHg; auto. simpl in Hj. lia.
Qed.

Lemma in_box_upd : forall mn sz a f c, in_box mn sz c = true -> (a < length c)%nat ->
  in_box mn sz (upd_at a f c) =
  (0 <=? f (nth a c 0) - nth a mn 0) && (f (nth a c 0) - nth a mn 0 <? nth a sz 0).
Proof.
  induction mn as [|m mn IH]; intros sz a f c H Ha; destruct sz as [|s sz], c as [|x c];
    cbn [in_box] in H; try discriminate; simpl in Ha; try lia.
  apply andb_true_iff in H. destruct H as [H1 H2]. destruct a; cbn [upd_at in_box nth].
  - rewrite H2, andb_true_r. auto.
  - rewrite H1, IH by (auto; lia). auto.
Qed.
