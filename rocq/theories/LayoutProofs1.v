(** Proofs about coordinates, divisors, boxes and site ordering. *)
From Verif Require Import Common LayoutModel.

(** ** Elementary facts *)

Lemma pmod_spec : forall a b, 0 < b -> pmod a b = a mod b.
Proof.
  intros a b Hb. unfold pmod.
  assert (Hr := Z.rem_bound_abs a b ltac:(lia)).
  assert (He := Z.quot_rem' a b).
  destruct (Z.ltb_spec (Z.rem a b) 0).
  - apply Z.mod_unique with (q := Z.quot a b - 1); lia.
  - apply Z.mod_unique with (q := Z.quot a b); lia.
Qed.

Lemma even_mod2 : forall z, Z.even z = (z mod 2 =? 0).
Proof.
  intros. rewrite Zmod_even. destruct (Z.even z); auto.
Qed.

Lemma even_site_spec : forall c, even_site c = Z.even (zsum c).
Proof.
  intros. unfold even_site. rewrite even_mod2.
  destruct (Z.eqb_spec (Z.rem (zsum c) 2) 0) as [H|H];
  destruct (Z.eqb_spec (zsum c mod 2) 0) as [H1|H1]; auto; exfalso.
  - apply H1. apply Z.rem_divide in H; [|lia]. apply Z.mod_divide; [lia|auto].
  - apply H. apply Z.mod_divide in H1; [|lia]. apply Z.rem_divide; [lia|auto].
Qed.

(** ** Node divisors *)

(** Least x with x*n >= k*L. *)
Definition cdiv (L n k : Z) : Z := - ((- (k * L)) / n).

Lemma cdiv_ge : forall L n k x, 0 < n -> (cdiv L n k <= x <-> k * L <= x * n).
Proof.
  intros. unfold cdiv.
  assert (Hd := Z.div_mod (- (k * L)) n ltac:(lia)).
  assert (Hm := Z.mod_pos_bound (- (k * L)) n ltac:(lia)).
  set (q := - (k * L) / n) in *. split; intros; nia.
Qed.

Lemma cdiv_lt : forall L n k x, 0 < n -> (x < cdiv L n k <-> x * n < k * L).
Proof.
  intros. assert (Hd := cdiv_ge L n k x H). lia.
Qed.

Lemma cdiv_0 : forall L n, cdiv L n 0 = 0.
Proof. intros. unfold cdiv. replace (- (0 * L)) with 0 by lia. rewrite Zdiv_0_l. auto. Qed.

Lemma cdiv_n : forall L n, 0 < n -> cdiv L n n = L.
Proof.
  intros. assert (H1 := proj2 (cdiv_ge L n n L H)). assert (H2 := proj2 (cdiv_lt L n n (L-1) H)).
  nia.
Qed.

Lemma cdiv_mono : forall L n k, 0 < L -> 0 < n -> cdiv L n k <= cdiv L n (k + 1).
Proof.
  intros. assert (H1 := proj2 (cdiv_ge L n k (cdiv L n (k+1)) H0)).
  assert (H2 := proj1 (cdiv_ge L n (k+1) (cdiv L n (k+1)) H0)). apply H1. nia.
Qed.

Lemma cdiv_nonneg : forall L n k, 0 < L -> 0 < n -> 0 <= k -> 0 <= cdiv L n k.
Proof.
  intros. destruct (Z_lt_le_dec (cdiv L n k) 0); [|lia].
  assert (H2 := proj1 (cdiv_ge L n k (-1) H0)). nia.
Qed.

(** The site x lies in the interval of node coordinate k iff x*n/L = k. *)
Lemma cdiv_interval : forall L n k x, 0 < L -> 0 < n ->
  (cdiv L n k <= x < cdiv L n (k + 1) <-> (x * n) / L = k).
Proof.
  intros. rewrite cdiv_ge, cdiv_lt by auto. split; intros.
  - symmetry. apply Z.div_unique with (r := x * n - k * L); nia.
  - assert (Hd := Z.div_mod (x * n) L ltac:(lia)).
    assert (Hm := Z.mod_pos_bound (x * n) L ltac:(lia)). nia.
Qed.

Lemma repeat_map_const : forall A B (f : A -> B) l b,
  (forall x, In x l -> f x = b) -> map f l = repeat b (length l).
Proof. induction l; simpl; intros; auto. rewrite H by auto. f_equal. auto. Qed.

Lemma divisors_loop_spec : forall L n steps i, 0 < L -> 0 < n -> 1 <= i ->
  divisors_loop L n i (((i - 1) * n) / L) steps =
  map (cdiv L n) (zrange (((i - 1) * n) / L + 1)
        (Z.to_nat (((i - 1 + Z.of_nat steps) * n) / L - ((i - 1) * n) / L))).
Proof.
  induction steps; intros i HL Hn Hi.
  - replace (i - 1 + Z.of_nat 0) with (i - 1) by lia.
    rewrite Z.sub_diag. reflexivity.
  - cbn [divisors_loop].
    assert (Hm1 : (i - 1) * n / L <= i * n / L) by (apply Z.div_le_mono; nia).
    assert (Hm2 : i * n / L <= (i - 1 + Z.of_nat (S steps)) * n / L) by (apply Z.div_le_mono; nia).
    rewrite Z.max_r by lia.
    replace (i * n / L) with ((i + 1 - 1) * n / L) at 2 by (do 2 f_equal; lia).
    rewrite IHsteps by lia.
    replace (i + 1 - 1 + Z.of_nat steps) with (i - 1 + Z.of_nat (S steps)) by lia.
    replace (i + 1 - 1) with i by lia.
    set (a := (i - 1) * n / L) in *. set (b := i * n / L) in *.
    set (c := (i - 1 + Z.of_nat (S steps)) * n / L) in *.
    replace (Z.to_nat (c - a)) with (Z.to_nat (b - a) + Z.to_nat (c - b))%nat by lia.
    rewrite zrange_app, map_app. f_equal.
    + rewrite (repeat_map_const _ _ _ _ i).
      * rewrite zrange_length. auto.
      * intros k Hk. apply zrange_In in Hk.
        assert (H1 := proj2 (cdiv_ge L n k i Hn)). assert (H2 := proj2 (cdiv_lt L n k (i-1) Hn)).
        assert (i - 1 < cdiv L n k).
        { apply H2. assert (Hd := Z.div_mod ((i-1) * n) L ltac:(lia)).
          assert (Hm := Z.mod_pos_bound ((i-1) * n) L ltac:(lia)). fold a in Hd. nia. }
        assert (cdiv L n k <= i).
        { apply H1. assert (Hd := Z.div_mod (i * n) L ltac:(lia)).
          assert (Hm := Z.mod_pos_bound (i * n) L ltac:(lia)). fold b in Hd. nia. }
        lia.
    + do 2 f_equal. lia.
Qed.

Lemma divisors_spec : forall L n, 0 < L -> 0 < n ->
  divisors L n = map (cdiv L n) (zrange 0 (S (Z.to_nat n))).
Proof.
  intros. unfold divisors. cbn [divisors_loop].
  rewrite Zdiv_0_l. replace (Z.to_nat (0 - -1)) with 1%nat by lia. cbn [repeat app].
  replace (Z.max (-1) 0) with 0 by lia. replace (0 + 1) with 1 by lia.
  assert (Hs := divisors_loop_spec L n (Z.to_nat L) 1 ltac:(lia) ltac:(lia) ltac:(lia)).
  replace ((1 - 1) * n / L) with 0 in Hs by (replace ((1 - 1) * n) with 0 by lia; rewrite Zdiv_0_l; auto).
  rewrite Hs.
  replace ((1 - 1 + Z.of_nat (Z.to_nat L)) * n / L) with n.
  - cbn [zrange map]. rewrite cdiv_0. do 3 f_equal. lia.
  - rewrite Z2Nat.id by lia. replace ((1 - 1 + L) * n) with (n * L) by ring.
    rewrite Z.div_mul by lia. auto.
Qed.

Lemma divisors_length : forall L n, 0 < L -> 0 < n -> length (divisors L n) = S (Z.to_nat n).
Proof. intros. rewrite divisors_spec by auto. rewrite map_length, zrange_length. auto. Qed.

Lemma divisor_spec : forall L n k, 0 < L -> 0 < n -> 0 <= k <= n -> divisor L n k = cdiv L n k.
Proof.
  intros. unfold divisor. rewrite divisors_spec by auto.
  rewrite nth_indep with (d' := cdiv L n 0) by (rewrite map_length, zrange_length; lia).
  rewrite map_nth with (f := cdiv L n). rewrite zrange_nth by lia. f_equal. lia.
Qed.

(** ** Mixed radix *)

(** Well-formed grid: equal lengths, positive entries. *)
Inductive grid : list Z -> list Z -> Prop :=
| grid_nil : grid [] []
| grid_cons : forall L ls n nd, 0 < L -> 0 < n -> grid ls nd -> grid (L :: ls) (n :: nd).

Lemma grid_length : forall ls nd, grid ls nd -> length ls = length nd.
Proof. induction 1; simpl; auto. Qed.

Lemma grid_nd_pos : forall ls nd, grid ls nd -> Forall (fun x => 0 < x) nd.
Proof. induction 1; constructor; auto. Qed.

Lemma grid_ls_pos : forall ls nd, grid ls nd -> Forall (fun x => 0 < x) ls.
Proof. induction 1; constructor; auto. Qed.

Definition inside (ls c : list Z) : Prop := Forall2 (fun L x => 0 <= x < L) ls c.

Lemma logical_node_range : forall ls nd c, grid ls nd -> inside ls c ->
  0 <= logical_node ls nd c < zprod nd.
Proof.
  intros ls nd c Hg. revert c. induction Hg; intros c Hc.
  - inversion Hc; subst. simpl. lia.
  - inversion Hc; subst. cbn [logical_node]. rewrite zprod_cons.
    specialize (IHHg _ H5).
    assert (0 <= y * n / L < n).
    { split; [apply Z.div_pos; nia|apply Z.div_lt_upper_bound; nia]. }
    nia.
Qed.

(** The box of logical node [id] contains exactly the sites with that logical index. *)
Lemma in_box_logical : forall ls nd c id, grid ls nd -> length c = length ls ->
  0 <= id < zprod nd ->
  (in_box (node_min ls nd id) (node_size ls nd id) c = true <->
   inside ls c /\ logical_node ls nd c = id).
Proof.
  intros ls nd c id Hg. revert c id. induction Hg; intros c id Hlen Hid.
  - destruct c; [|discriminate]. simpl in *. split; intros; [split; [constructor|lia]|auto].
  - destruct c as [|x c]; [discriminate|]. simpl in Hlen.
    rewrite zprod_cons in Hid.
    assert (Hm := Z.mod_pos_bound id n ltac:(lia)).
    assert (Hd := Z.div_mod id n ltac:(lia)).
    assert (Hq : 0 <= id / n < zprod nd) by (split; [apply Z.div_pos; lia|apply Z.div_lt_upper_bound; lia]).
    cbn [node_min node_size in_box logical_node].
    rewrite !divisor_spec by lia.
    rewrite !andb_true_iff. rewrite (IHHg c (id / n)) by (auto; lia).
    assert (Hi := cdiv_interval L n (id mod n) x H H0).
    split.
    + intros [[Ha Hb] [Hin Hlog]].
      assert (Hx : x * n / L = id mod n) by (apply Hi; lia).
      split.
      * constructor; auto.
        assert (0 <= cdiv L n (id mod n)) by (apply cdiv_nonneg; lia).
        assert (x < L).
        { destruct (Z_lt_le_dec x L); auto. assert (n <= x * n / L) by (apply Z.div_le_lower_bound; nia). lia. }
        lia.
      * rewrite Hlog, Hx. lia.
    + intros [Hin Hlog]. inversion Hin; subst.
      assert (Hx : 0 <= x * n / L < n)
        by (split; [apply Z.div_pos; nia|apply Z.div_lt_upper_bound; nia]).
      assert (Hxm : x * n / L = (logical_node ls nd c * n + x * n / L) mod n).
      { rewrite Z.add_comm, Z.mod_add by lia. rewrite Z.mod_small; lia. }
      assert (Hxd : logical_node ls nd c = (logical_node ls nd c * n + x * n / L) / n).
      { rewrite Z.add_comm, Z.div_add by lia. rewrite Z.div_small; lia. }
      apply Hi in Hxm. split; [split; lia|split; auto].
Qed.

Lemma node_min_length : forall ls nd id, grid ls nd -> length (node_min ls nd id) = length ls.
Proof. intros ls nd id Hg; revert id; induction Hg; intros; simpl; auto. Qed.
Lemma node_size_length : forall ls nd id, grid ls nd -> length (node_size ls nd id) = length ls.
Proof. intros ls nd id Hg; revert id; induction Hg; intros; simpl; auto. Qed.

Lemma node_size_nonneg : forall ls nd id, grid ls nd -> 0 <= id < zprod nd ->
  Forall (fun s => 0 <= s) (node_size ls nd id).
Proof.
  intros ls nd id Hg; revert id; induction Hg; intros id Hid; cbn [node_size]; constructor.
  - rewrite zprod_cons in Hid. assert (Hm := Z.mod_pos_bound id n ltac:(lia)).
    rewrite !divisor_spec by lia. assert (Hc := cdiv_mono L n (id mod n) H H0). lia.
  - rewrite zprod_cons in Hid. apply IHHg. split; [apply Z.div_pos; lia|apply Z.div_lt_upper_bound; lia].
Qed.

Lemma in_box_length : forall mn sz c, in_box mn sz c = true -> length c = length mn /\ length sz = length mn.
Proof.
  induction mn; destruct sz, c; simpl; intros; try discriminate; auto.
  rewrite !andb_true_iff in H. destruct H as [_ H]. apply IHmn in H. lia.
Qed.

(** ** Boxes as products of lists (x fastest) *)

Fixpoint prodl (ls : list (list Z)) : list (list Z) :=
  match ls with
  | [] => [[]]
  | l :: r => flat_map (fun rest => map (fun x => x :: rest) l) (prodl r)
  end.

Fixpoint box_ranges (mn sz : list Z) : list (list Z) :=
  match mn, sz with
  | m :: mn', s :: sz' => zrange m (Z.to_nat s) :: box_ranges mn' sz'
  | _, _ => []
  end.

Definition box_sites (mn sz : list Z) : list (list Z) := prodl (box_ranges mn sz).

Lemma prodl_In : forall ls c, In c (prodl ls) <-> Forall2 (fun l x => In x l) ls c.
Proof.
  induction ls; intros c; simpl.
  - split; [intros [H|[]]; subst; constructor|intros H; inversion H; auto].
  - rewrite in_flat_map. split.
    + intros (r & Hr & Hm). apply in_map_iff in Hm. destruct Hm as (x & <- & Hx).
      constructor; auto. apply IHls; auto.
    + intros H. inversion H; subst. exists l'. split; [apply IHls; auto|].
      apply in_map_iff. eauto.
Qed.

Lemma NoDup_app_intro : forall A (l1 l2 : list A), NoDup l1 -> NoDup l2 ->
  (forall x, In x l1 -> In x l2 -> False) -> NoDup (l1 ++ l2).
Proof.
  induction l1; simpl; intros; auto. inversion H; subst. constructor.
  - rewrite in_app_iff. intros [Hi|Hi]; [auto|]. eapply H1; eauto.
  - apply IHl1; auto. intros. eapply H1; eauto.
Qed.

Lemma prodl_NoDup : forall ls, Forall (@NoDup Z) ls -> NoDup (prodl ls).
Proof.
  induction 1; simpl.
  - constructor; [simpl; tauto|constructor].
  - induction (prodl l) as [|r rs IH]; simpl; [constructor|].
    inversion IHForall; subst. apply NoDup_app_intro.
    + apply NoDup_map_inj; auto. intros a b _ _ E. congruence.
    + apply IH. auto.
    + intros c Hc1 Hc2. apply in_map_iff in Hc1. destruct Hc1 as (a & <- & Ha).
      apply in_flat_map in Hc2. destruct Hc2 as (r' & Hr' & Hc).
      apply in_map_iff in Hc. destruct Hc as (b & E & Hb). inversion E; subst. auto.
Qed.

Lemma box_sites_In : forall mn sz c, length mn = length sz ->
  (In c (box_sites mn sz) <-> in_box mn sz c = true).
Proof.
  unfold box_sites. intros mn sz c Hl. rewrite prodl_In. revert sz c Hl.
  induction mn; destruct sz as [|s sz]; intros c Hl; simpl in Hl; try discriminate; cbn [box_ranges in_box].
  - split; [intros H; inversion H; auto|destruct c; [constructor|discriminate]].
  - destruct c as [|x c].
    + split; [intros H; inversion H|discriminate].
    + rewrite !andb_true_iff. rewrite <- IHmn by lia. split.
      * intros H. inversion H; subst. apply zrange_In in H3. split; auto. lia.
      * intros [[Ha Hb] Hr]. constructor; auto. apply zrange_In. lia.
Qed.

Lemma box_sites_NoDup : forall mn sz, NoDup (box_sites mn sz).
Proof.
  intros. apply prodl_NoDup. revert sz. induction mn; destruct sz; simpl; constructor; auto.
  apply zrange_NoDup.
Qed.

Lemma flat_map_const_length : forall A B (f : A -> list B) l n,
  (forall x, In x l -> length (f x) = n) -> length (flat_map f l) = (length l * n)%nat.
Proof.
  induction l; simpl; intros; auto. rewrite app_length, H, (IHl n); auto.
Qed.

Lemma box_sites_length : forall mn sz, length mn = length sz -> Forall (fun s => 0 <= s) sz ->
  Z.of_nat (length (box_sites mn sz)) = zprod sz.
Proof.
  unfold box_sites. intros mn sz Hl Hs. revert mn Hl. induction Hs; intros mn Hl;
    destruct mn as [|m mn]; simpl in Hl; try discriminate; [reflexivity|].
  cbn [box_ranges prodl]. rewrite zprod_cons.
  rewrite flat_map_const_length with (n := Z.to_nat x).
  - rewrite Nat2Z.inj_mul, IHHs by lia. rewrite Z2Nat.id by lia. ring.
  - intros. rewrite map_length, zrange_length. auto.
Qed.

(** ** Iterating [advance] enumerates the box in this order *)

Fixpoint iter_advance (mn sz : list Z) (n : nat) (l : list Z) : list (list Z) :=
  match n with
  | O => []
  | S k => l :: iter_advance mn sz k (advance mn sz l)
  end.

Lemma iter_advance_app : forall mn sz a b l,
  iter_advance mn sz (a + b) l =
  iter_advance mn sz a l ++ iter_advance mn sz b (Nat.iter a (advance mn sz) l).
Proof.
  induction a; intros; cbn [iter_advance Nat.add app Nat.iter]; auto.
  f_equal. rewrite IHa. f_equal. f_equal.
  clear. induction a; simpl; auto. rewrite IHa. auto.
Qed.

Lemma iter_row : forall m s mn sz rest k x, m <= x -> x + Z.of_nat k <= m + s ->
  iter_advance (m :: mn) (s :: sz) k (x :: rest) = map (fun y => y :: rest) (zrange x k).
Proof.
  induction k; intros; cbn [iter_advance zrange map]; auto. f_equal.
  destruct k; [reflexivity|].
  cbn [advance]. destruct (Z.ltb_spec (x + 1) (m + s)); [|lia].
  apply IHk; lia.
Qed.

Lemma iter_row_end : forall m s mn sz rest k x, m <= x -> x + Z.of_nat k <= m + s -> (0 < k)%nat ->
  Nat.iter k (advance (m :: mn) (s :: sz)) (x :: rest) =
  if x + Z.of_nat k =? m + s then m :: advance mn sz rest else (x + Z.of_nat k) :: rest.
Proof.
  intros m s mn sz rest. induction k; intros x Hx Hb Hk; [lia|].
  destruct k.
  - cbn [Nat.iter nat_rect advance]. destruct (Z.ltb_spec (x + 1) (m + s)), (Z.eqb_spec (x + Z.of_nat 1) (m + s)); try lia; f_equal; lia.
  - change (Nat.iter (S (S k)) (advance (m :: mn) (s :: sz)) (x :: rest)) with
      (advance (m :: mn) (s :: sz) (Nat.iter (S k) (advance (m :: mn) (s :: sz)) (x :: rest))).
    rewrite IHk by lia. destruct (Z.eqb_spec (x + Z.of_nat (S k)) (m + s)); [lia|].
    cbn [advance]. destruct (Z.ltb_spec (x + Z.of_nat (S k) + 1) (m + s)),
      (Z.eqb_spec (x + Z.of_nat (S (S k))) (m + s)); try lia; f_equal; lia.
Qed.

Lemma iter_rows : forall m s mn sz q rest, 0 < s ->
  iter_advance (m :: mn) (s :: sz) (q * Z.to_nat s) (m :: rest) =
  flat_map (fun r => map (fun x => x :: r) (zrange m (Z.to_nat s))) (iter_advance mn sz q rest).
Proof.
  induction q; intros rest Hs; cbn [Nat.mul iter_advance flat_map]; auto.
  rewrite iter_advance_app. rewrite iter_row by lia. f_equal.
  rewrite iter_row_end by lia. rewrite Z2Nat.id by lia. rewrite Z.eqb_refl. auto.
Qed.

Lemma iter_advance_box : forall mn sz, length mn = length sz -> Forall (fun s => 0 <= s) sz ->
  iter_advance mn sz (Z.to_nat (zprod sz)) mn = box_sites mn sz.
Proof.
  intros mn sz Hl Hs. revert mn Hl. induction Hs; intros mn Hl;
    destruct mn as [|m mn]; simpl in Hl; try discriminate; [reflexivity|].
  rewrite zprod_cons. unfold box_sites. cbn [box_ranges prodl].
  assert (Hz := zprod_nonneg _ Hs).
  destruct (Z.eq_dec x 0) as [->|Hx].
  - rewrite Z.mul_0_l. cbn [iter_advance Z.to_nat zrange map]. clear.
    induction (prodl (box_ranges mn l)) as [|? ? IH]; [reflexivity|exact IH].
  - rewrite Z.mul_comm, Z2Nat.inj_mul by lia. rewrite iter_rows by lia.
    rewrite IHHs by lia. reflexivity.
Qed.

(** ** Logical index enumerates the box as 0, 1, 2, ... *)

Lemma logical_index_acc_scale : forall mn sz c v,
  logical_index_acc v mn sz c = v * logical_index_acc 1 mn sz c.
Proof.
  induction mn; destruct sz, c; intros; cbn [logical_index_acc]; try ring.
  rewrite IHmn. rewrite (IHmn sz c (1 * z)). ring.
Qed.

Lemma logical_index_cons : forall m s x mn sz c,
  logical_index_acc 1 (m :: mn) (s :: sz) (x :: c) = (x - m) + s * logical_index_acc 1 mn sz c.
Proof.
  intros. cbn [logical_index_acc]. rewrite logical_index_acc_scale. ring.
Qed.

Lemma flat_map_ext_In : forall A B (f g : A -> list B) l,
  (forall x, In x l -> f x = g x) -> flat_map f l = flat_map g l.
Proof. induction l; simpl; intros; auto. rewrite H, IHl; auto. Qed.

Lemma zrange_blocks : forall q s, 0 <= s ->
  flat_map (fun r => zrange (s * r) (Z.to_nat s)) (zrange 0 q) = zrange 0 (q * Z.to_nat s).
Proof.
  intros q s Hs.
  assert (forall q a, flat_map (fun r => zrange (s * r) (Z.to_nat s)) (zrange a q) =
                      zrange (s * a) (q * Z.to_nat s)).
  { clear q. induction q; intros; cbn [zrange flat_map Nat.mul]; auto.
    rewrite zrange_app. rewrite IHq. do 2 f_equal. lia. }
  rewrite H. f_equal. lia.
Qed.

Lemma map_flat_map : forall A B C (f : B -> C) (g : A -> list B) l,
  map f (flat_map g l) = flat_map (fun x => map f (g x)) l.
Proof. induction l; simpl; auto. rewrite map_app, IHl. auto. Qed.

Lemma flat_map_map : forall A B C (f : B -> list C) (g : A -> B) l,
  flat_map f (map g l) = flat_map (fun x => f (g x)) l.
Proof. induction l; simpl; auto. rewrite IHl. auto. Qed.

Lemma box_logical_index : forall mn sz, length mn = length sz -> Forall (fun s => 0 <= s) sz ->
  map (logical_index_acc 1 mn sz) (box_sites mn sz) = zrange 0 (Z.to_nat (zprod sz)).
Proof.
  intros mn sz Hl Hs. revert mn Hl. induction Hs; intros mn Hl;
    destruct mn as [|m mn]; simpl in Hl; try discriminate; [reflexivity|].
  unfold box_sites. cbn [box_ranges prodl]. rewrite map_flat_map.
  rewrite zprod_cons.
  assert (Hz := zprod_nonneg _ Hs).
  replace (Z.to_nat (x * zprod l)) with (Z.to_nat (zprod l) * Z.to_nat x)%nat
    by (rewrite Z.mul_comm, Z2Nat.inj_mul; lia).
  rewrite <- zrange_blocks by auto. rewrite <- (IHHs mn) by lia.
  rewrite flat_map_map. apply flat_map_ext_In. intros r Hr.
  rewrite map_map.
  rewrite map_ext with (g := fun y => (x * logical_index_acc 1 mn l r - m) + y)
    by (intros; rewrite logical_index_cons; ring).
  rewrite zrange_map_add. f_equal. ring.
Qed.

(** ** Alternating parities *)

(** [zipped] lists: elements 2k and 2k+1 have opposite [p]. *)
Inductive alt_pairs {A} (p : A -> bool) : list A -> Prop :=
| ap_nil : alt_pairs p []
| ap_one : forall x, alt_pairs p [x]
| ap_two : forall x y l, p y = negb (p x) -> alt_pairs p l -> alt_pairs p (x :: y :: l).

Lemma alt_pairs_app_even : forall A (p : A -> bool) l1 l2,
  alt_pairs p l1 -> Nat.even (length l1) = true -> alt_pairs p l2 -> alt_pairs p (l1 ++ l2).
Proof. induction 1; intros; simpl in *; try discriminate; auto. constructor; auto. Qed.

(** Strictly alternating lists starting with parity b. *)
Inductive alternating {A} (p : A -> bool) : bool -> list A -> Prop :=
| alt_nil : forall b, alternating p b []
| alt_cons : forall b x l, p x = b -> alternating p (negb b) l -> alternating p b (x :: l).

Lemma alternating_pairs : forall A (p : A -> bool) l b, alternating p b l -> alt_pairs p l.
Proof.
  intros A p. fix IH 1. intros l b H. destruct l as [|x [|y l]]; try constructor.
  - inversion H; subst. inversion H4; subst. auto.
  - inversion H; subst. inversion H4; subst. eapply IH; eauto.
Qed.

Lemma alternating_app : forall A (p : A -> bool) l1 l2 b,
  alternating p b l1 -> alternating p (if Nat.even (length l1) then b else negb b) l2 ->
  alternating p b (l1 ++ l2).
Proof.
  induction 1; intros; simpl in *; auto. constructor; auto. apply IHalternating.
  change (match length l with 0%nat => false | S n' => Nat.even n' end) with (Nat.even (S (length l))) in H1.
  rewrite Nat.even_succ, <- Nat.negb_even in H1.
  destruct (Nat.even (length l)), b; auto.
Qed.

Lemma even_site_cons : forall x c, even_site (x :: c) = Bool.eqb (Z.even x) (even_site c).
Proof. intros. rewrite !even_site_spec, zsum_cons, Z.even_add. auto. Qed.

Lemma row_alternating : forall n m r,
  alternating even_site (even_site (m :: r)) (map (fun x => x :: r) (zrange m n)).
Proof.
  induction n; intros; cbn [zrange map]; constructor; auto.
  replace (negb (even_site (m :: r))) with (even_site ((m + 1) :: r)); [apply IHn|].
  rewrite !even_site_cons. rewrite Z.even_add. destruct (Z.even m), (even_site r); auto.
Qed.

(** Odd row length: the whole product alternates if the rest alternates. *)
Lemma rows_alternating : forall s m, Nat.even s = false -> forall R b,
  alternating even_site b R ->
  alternating even_site (Bool.eqb (Z.even m) b)
     (flat_map (fun r => map (fun x => x :: r) (zrange m s)) R).
Proof.
  intros s m Hs R b H. induction H; simpl; [constructor|].
  apply alternating_app.
  - replace (Bool.eqb (Z.even m) b) with (even_site (m :: x)).
    + apply row_alternating.
    + rewrite even_site_cons, H. auto.
  - rewrite map_length, zrange_length, Hs.
    replace (negb (Bool.eqb (Z.even m) b)) with (Bool.eqb (Z.even m) (negb b)); auto.
    destruct (Z.even m), b; auto.
Qed.

Lemma box_alternation : forall mn sz, length mn = length sz -> Forall (fun s => 0 <= s) sz ->
  alt_pairs even_site (box_sites mn sz) /\
  (Z.odd (zprod sz) = true -> alternating even_site (even_site mn) (box_sites mn sz)).
Proof.
  intros mn sz Hl Hs. revert mn Hl. induction Hs; intros mn Hl;
    destruct mn as [|m mn]; simpl in Hl; try discriminate.
  - split; [constructor|intros _]. constructor; [reflexivity|constructor].
  - unfold box_sites. cbn [box_ranges prodl]. fold (box_sites mn l).
    destruct (IHHs mn ltac:(lia)) as [Hap Hal]. clear IHHs.
    assert (Hpar : Nat.even (Z.to_nat x) = Z.even x).
    { rewrite <- (Z2Nat.id x) at 2 by auto. generalize (Z.to_nat x). clear.
      intros n. rewrite <- (Nat2Z.id n) at 1. induction n as [|n IHn]; auto.
      rewrite Nat2Z.inj_succ, Z.even_succ. rewrite Z2Nat.inj_succ by lia.
      rewrite Nat.even_succ, <- Nat.negb_even, <- Z.negb_even, IHn. auto. }
    destruct (Z.even x) eqn:Ex.
    + split.
      * clear Hap Hal. induction (box_sites mn l); simpl; [constructor|].
        apply alt_pairs_app_even; auto.
        -- eapply alternating_pairs. apply row_alternating.
        -- rewrite map_length, zrange_length. auto.
      * rewrite zprod_cons, Z.odd_mul, <- Z.negb_even, Ex. discriminate.
    + split.
      * revert Hap. generalize (box_sites mn l). fix IH 1. intros R HR.
        destruct R as [|r1 [|r2 R]].
        -- constructor.
        -- simpl. rewrite app_nil_r. eapply alternating_pairs. apply row_alternating.
        -- inversion HR; subst. simpl. rewrite app_assoc. apply alt_pairs_app_even.
           ++ eapply alternating_pairs. apply alternating_app; [apply row_alternating|].
              rewrite map_length, zrange_length, Hpar.
              replace (negb (even_site (m :: r1))) with (even_site (m :: r2)).
              ** apply row_alternating.
              ** rewrite !even_site_cons, H2. destruct (Z.even m), (even_site r1); auto.
           ++ rewrite app_length, !map_length, !zrange_length. apply Nat.even_spec.
              exists (Z.to_nat x). lia.
           ++ apply (IH R). auto.
      * rewrite zprod_cons, Z.odd_mul, <- Z.negb_even, Ex. cbn [negb andb]. intros Ho.
        rewrite even_site_cons. apply rows_alternating; auto.
Qed.

(** Halving the position in an alternating-pairs list. *)
Lemma halve_filter : forall A (p : A -> bool) (idx : A -> Z) l a,
  alt_pairs p l -> map idx l = zrange (2 * a) (length l) ->
  map (fun x => idx x / 2) (filter p l) = zrange a (length (filter p l)) /\
  map (fun x => idx x / 2) (filter (fun x => negb (p x)) l) =
    zrange a (length (filter (fun x => negb (p x)) l)).
Proof.
  intros A p idx l a H. revert a. induction H; intros a Hm; cbn [map length zrange] in Hm.
  - auto.
  - assert (Hx : idx x = 2 * a) by congruence.
    assert (Dx : idx x / 2 = a) by (rewrite Hx; symmetry; apply Z.div_unique with (r := 0); lia).
    cbn [filter]. destruct (p x); cbn [negb map length zrange]; rewrite ?Dx; auto.
  - assert (Hx : idx x = 2 * a) by congruence.
    assert (Hy : idx y = 2 * a + 1) by congruence.
    assert (Hl : map idx l = zrange (2 * a + 1 + 1) (length l)) by congruence.
    replace (2 * a + 1 + 1) with (2 * (a + 1)) in Hl by lia.
    destruct (IHalt_pairs _ Hl) as [E1 E2].
    assert (Dx : idx x / 2 = a) by (rewrite Hx; symmetry; apply Z.div_unique with (r := 0); lia).
    assert (Dy : idx y / 2 = a) by (rewrite Hy; symmetry; apply Z.div_unique with (r := 1); lia).
    cbn [filter]. rewrite H. destruct (p x); cbn [negb map length zrange];
      rewrite ?Dx, ?Dy, E1, E2; auto.
Qed.

Lemma alt_pairs_counts : forall A (p : A -> bool) l, alt_pairs p l ->
  Nat.even (length l) = true ->
  length (filter p l) = length (filter (fun x => negb (p x)) l).
Proof.
  induction 1; intros; simpl in *; try discriminate; auto. rewrite H.
  destruct (p x); simpl; auto.
Qed.

Lemma alternating_counts : forall A (p : A -> bool) b l, alternating p b l ->
  Z.of_nat (length (filter p l)) - Z.of_nat (length (filter (fun x => negb (p x)) l)) =
  if Nat.even (length l) then 0 else if b then 1 else -1.
Proof.
  induction 1; cbn [filter]; [reflexivity|].
  change (length (x :: l)) with (S (length l)). rewrite Nat.even_succ, <- Nat.negb_even.
  rewrite H. destruct b, (Nat.even (length l)); cbn [negb length] in *; lia.
Qed.

Lemma filter_partition_length : forall A (p : A -> bool) l,
  length l = (length (filter p l) + length (filter (fun x => negb (p x)) l))%nat.
Proof. induction l; simpl; auto. destruct (p a); simpl; lia. Qed.

Definition odd_site (c : list Z) : bool := negb (even_site c).

Lemma even_of_nat : forall n, Z.even (Z.of_nat n) = Nat.even n.
Proof.
  induction n; auto. rewrite Nat2Z.inj_succ, Z.even_succ, Nat.even_succ.
  rewrite <- Z.negb_even, <- Nat.negb_even, IHn. auto.
Qed.

(** The even/odd counts computed by nodeinfo are right. *)
Lemma count_sites_spec : forall mn sz, length mn = length sz -> Forall (fun s => 0 <= s) sz ->
  n_even (count_sites mn sz) = Z.of_nat (length (filter even_site (box_sites mn sz))) /\
  n_odd (count_sites mn sz) = Z.of_nat (length (filter odd_site (box_sites mn sz))) /\
  n_min (count_sites mn sz) = mn /\ n_siz (count_sites mn sz) = sz.
Proof.
  intros mn sz Hl Hs. destruct (box_alternation mn sz Hl Hs) as [Hap Hal].
  assert (Hlen := box_sites_length mn sz Hl Hs).
  assert (Hpart := filter_partition_length _ even_site (box_sites mn sz)).
  fold odd_site in Hpart.
  change (length (filter (fun x => negb (even_site x)) (box_sites mn sz)))
    with (length (filter odd_site (box_sites mn sz))) in Hpart.
  unfold count_sites. rewrite <- Hlen in *.
  set (v := length (box_sites mn sz)) in *.
  destruct (Z.eqb_spec (Z.of_nat v mod 2) 0) as [E|E].
  - assert (Hev : Nat.even v = true) by (rewrite <- even_of_nat, even_mod2, E; auto).
    assert (Hc := alt_pairs_counts _ _ _ Hap Hev).
    change (length (filter (fun x => negb (even_site x)) (box_sites mn sz)))
      with (length (filter odd_site (box_sites mn sz))) in Hc.
    cbn. repeat split; lia.
  - assert (Hev : Nat.even v = false).
    { rewrite <- even_of_nat, even_mod2. destruct (Z.eqb_spec (Z.of_nat v mod 2) 0); [lia|auto]. }
    assert (Hod : Z.odd (Z.of_nat v) = true) by (rewrite <- Z.negb_even, even_of_nat, Hev; auto).
    assert (Hc := alternating_counts _ _ _ _ (Hal Hod)).
    change (length (filter (fun x => negb (even_site x)) (box_sites mn sz)))
      with (length (filter odd_site (box_sites mn sz))) in Hc.
    fold v in Hc. rewrite Hev in Hc.
    destruct (even_site mn); cbn; repeat split; lia.
Qed.
