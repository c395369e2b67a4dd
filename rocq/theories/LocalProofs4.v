(** One call of the collection, and the nested loops. *)
From Verif Require Import Common LayoutModel LayoutSpec LayoutProofs1 LayoutProofs2 LayoutProofs4 LayoutProofs5 LayoutProofs8
  ElementModel LocalModel LocalSpec LocalProofs1 LocalProofs2 LocalProofs3.

(** Search below a bound for a decidable property. *)
Lemma classic_upper : forall (P : nat -> Prop) a b, (forall k, P k \/ ~ P k) ->
  (exists k, (a <= k < b)%nat /\ P k) \/ (forall k, (a <= k < b)%nat -> ~ P k).
Proof.
  intros P a b HP. induction b as [|b IH]; [right; intros; lia|].
  destruct IH as [(k & Hk & H)|H]; [left; exists k; split; auto; lia|].
  destruct (HP b) as [Hb|Hb].
  - destruct (Nat.le_gt_cases a b); [left; exists b; split; auto; lia|right; intros; lia].
  - right. intros k Hk. destruct (Nat.eq_dec k b) as [->|]; auto. apply H. lia.
Qed.

Section Halo.
  Context {V : Type}.
  Variables (lat : lattice) (st : rank_store V) (F : list Z -> V).
  Hypothesis Hv : valid_lattice lat.
  Hypothesis HF : represents lat st F.
  Notation n := (length (l_size lat)).
  Notation lo r j := (nth j (lower lat r) 0).
  Notation ex r j := (nth j (extent lat r) 0).
  Notation pos r := (offset (outer_lower lat r) (outer_extent lat r)).
  Notation wraps := (wraps_to (l_size lat)).

  Lemma size_pos : forall j, (j < n)%nat -> 0 < nth j (l_size lat) 0.
  Proof.
    intros j Hj. assert (H := valid_pos _ Hv). rewrite Forall_forall in H. apply H, nth_In. auto.
  Qed.

  Lemma halo_pos : forall r c, is_rank lat r -> length c = n -> halo_index (nodeinfo lat r) c = pos r c.
  Proof.
    intros r c Hr Lc. destruct (box_lengths lat r Hv) as [A B]. unfold halo_index, outer_lower, outer_extent, lower, extent.
    apply dot_offset; rewrite !map_length; lia.
  Qed.

  (** [src] has at the sites of a corner in the directions [D] the values of the
      sites beyond that corner. *)
  Definition corner_values (D : list nat) (src : rank_store V) : Prop :=
    forall r x c z, is_rank lat r -> holds lat r x -> out lat r D x c -> wraps c z ->
      src r (site_index (nodeinfo lat r) x) = F z.

  Lemma held_site : forall r x, is_rank lat r -> holds lat r x ->
    length x = n /\ forall j, (j < n)%nat -> 0 <= nth j x 0 < nth j (l_size lat) 0.
  Proof. intros r x Hr Hx. apply holds_is_site in Hx; auto. Qed.

  Lemma corner_nil : corner_values [] st.
  Proof.
    intros r x c z Hr Hx (L & Lc & H) (Lz & Hz). rewrite HF by auto. f_equal.
    destruct (held_site r x Hr Hx) as [_ Hs].
    apply nth_ext with (d := 0) (d' := 0); [lia|]. intros j Hj. rewrite L in Hj.
    rewrite Hz by auto. destruct (H j Hj) as [E _]. rewrite E by auto. rewrite Z.mod_small; auto.
  Qed.

  (** The value read at a site of the corner. *)
  Lemma corner_step : forall D d src r x c z, corner_values D src -> ~ In d D -> (d < n)%nat ->
    is_rank lat r -> holds lat r x -> out lat r (D ++ [d]) x c -> wraps c z ->
    neighbour_value lat src x
      (if nth d x 0 =? lo r d then opp_dir (Z.of_nat n) (Z.of_nat d) else Z.of_nat d) = F z.
  Proof.
    intros D d src r x c z HD Hd Hdn Hr Hx Ho Hz.
    destruct (held_site r x Hr Hx) as [Lx Hs]. destruct Ho as (_ & Lc & Ho).
    set (dd := if nth d x 0 =? lo r d then opp_dir (Z.of_nat n) (Z.of_nat d) else Z.of_nat d).
    set (t := if nth d x 0 =? lo r d then -1 else 1).
    assert (Hdir : is_direction (l_size lat) dd).
    { unfold is_direction, dd, opp_dir. destruct (_ =? _); lia. }
    assert (Hdisp : forall j, (j < n)%nat -> displacement (Z.of_nat n) dd j = if Nat.eqb j d then t else 0).
    { intros j Hj. unfold displacement, dd, t, opp_dir. destruct (nth d x 0 =? lo r d).
      - destruct (Z.eqb_spec (2 * Z.of_nat n - 1 - Z.of_nat d) (Z.of_nat j)) as [|N1]; [lia|].
        destruct (Nat.eqb_spec j d) as [->|N]; [rewrite Z.eqb_refl; auto|].
        destruct (Z.eqb_spec (2 * Z.of_nat n - 1 - Z.of_nat d) (2 * Z.of_nat n - 1 - Z.of_nat j)); [lia|auto].
      - destruct (Nat.eqb_spec j d) as [->|N]; [rewrite Z.eqb_refl; auto|].
        destruct (Z.eqb_spec (Z.of_nat d) (Z.of_nat j)) as [|N1]; [lia|].
        destruct (Z.eqb_spec (Z.of_nat d) (2 * Z.of_nat n - 1 - Z.of_nat j)); [lia|auto]. }
    assert (Hsite : is_site (l_size lat) x) by (eapply holds_is_site; eauto).
    assert (Hp : periodic_neighbour (l_size lat) x dd (neighbour lat x dd)).
    { apply (nbr_periodic (l_size lat) (valid_pos _ Hv) dd); auto. }
    unfold neighbour_value. set (y := neighbour lat x dd) in *. destruct Hp as (_ & Ly & Hy).
    assert (Hy' : forall j, (j < n)%nat -> nth j y 0 =
              (nth j x 0 + (if Nat.eqb j d then t else 0)) mod nth j (l_size lat) 0).
    { intros j Hj. rewrite Hy, Hdisp by auto. auto. }
    assert (Hys : is_site (l_size lat) y).
    { split; auto. intros j Hj. rewrite Hy by auto. apply Z.mod_pos_bound, size_pos. auto. }
    destruct (owner_unique lat y Hv Hys) as [Hrho Hown].
    set (rho := node_rank lat y) in *. assert (Hyh : holds lat rho y) by (apply Hown; auto).
    assert (Hother : forall j, (j < n)%nat -> j <> d -> nth j y 0 = nth j x 0).
    { intros j Hj N. rewrite Hy' by auto. destruct (Nat.eqb_spec j d); [lia|].
      rewrite Z.add_0_r. apply Z.mod_small. auto. }
    assert (Hbox : forall j, (j < n)%nat -> j <> d -> lo rho j = lo r j /\ ex rho j = ex r j).
    { intros j Hj N. apply (same_interval lat rho r y x j); auto. }
    set (y' := map (fun j => if Nat.eqb j d then nth j y 0 else nth j c 0) (seq 0 n)).
    assert (Hy'n : forall j, (j < n)%nat -> nth j y' 0 = if Nat.eqb j d then nth j y 0 else nth j c 0).
    { intros j Hj. unfold y'. set (f := fun j => _).
      rewrite nth_indep with (d' := f O) by (rewrite map_length, seq_length; auto).
      rewrite map_nth, seq_nth by auto. reflexivity. }
    apply (HD rho y y' z); auto.
    - split; [auto|]. split; [unfold y'; rewrite map_length, seq_length; auto|].
      intros j Hj. rewrite Hy'n by auto. destruct (Nat.eqb_spec j d) as [->|N]; [split; [auto|tauto]|].
      destruct (Hbox j Hj N) as [-> ->]. rewrite (Hother j Hj N).
      destruct (Ho j Hj) as [H1 H2]. rewrite in_app_iff in H1, H2. cbn [In] in H1, H2.
      split; intros I; [apply H1; intros [?|[?|[]]]; [tauto|lia]|apply H2; auto].
    - destruct Hz as [Lz Hz]. split; auto. intros j Hj. rewrite Hz, Hy'n by auto.
      destruct (Nat.eqb_spec j d) as [->|N]; auto. rewrite Hy', Nat.eqb_refl, Z.mod_mod by (auto; assert (P := size_pos d Hdn); lia).
      f_equal. destruct (Ho d Hdn) as [_ H2]. specialize (H2 ltac:(apply in_app_iff; right; left; auto)).
      unfold t. destruct (Z.eqb_spec (nth d x 0) (lo r d)); lia.
  Qed.

  (** ** One site *)

  Definition target (r : Z) (D : list nat) (i : Z) : option (list Z) :=
    let '(c, g) := fold_left (move_out (nodeinfo lat r)) D (coordinates (nodeinfo lat r) i, true) in
    if g then Some c else None.

  Definition value_at (r : Z) (d : nat) (src : rank_store V) (i : Z) : V :=
    let x := coordinates (nodeinfo lat r) i in
    neighbour_value lat src x
      (if nth d x 0 =? lo r d then opp_dir (Z.of_nat (length x)) (Z.of_nat d) else Z.of_nat d).

  Lemma collect_site_spec : forall r D d src dest data i, is_rank lat r -> NoDup (D ++ [d]) ->
    (forall j, In j (D ++ [d]) -> (j < n)%nat) -> 0 <= i < volume (nodeinfo lat r) ->
    collect_site lat (nodeinfo lat r) D d src (dest, data) i =
    match target r (D ++ [d]) i with
    | Some c => (zupd dest i (value_at r d src i),
                 zupd data (halo_index (nodeinfo lat r) c) (value_at r d src i))
    | None => (dest, data)
    end.
  Proof.
    intros r D d src dest data i Hr HD Hn Hi. unfold collect_site, target, value_at.
    destruct (index_held lat r Hv Hr i Hi) as [Hx _].
    set (x := coordinates (nodeinfo lat r) i) in *. assert (Lx := held_length lat r Hv x Hx).
    assert (Hd : ~ In d D). { apply NoDup_remove_2 in HD. rewrite app_nil_r in HD. auto. }
    assert (HD' : NoDup D) by (apply NoDup_remove_1 in HD; rewrite app_nil_r in HD; auto).
    assert (Hdn : (d < n)%nat) by (apply Hn, in_app_iff; right; left; auto).
    assert (Hm := moves lat r D x Hr HD' ltac:(intros; apply Hn, in_app_iff; auto) Lx).
    rewrite fold_left_app. cbn [fold_left].
    destruct (fold_left (move_out (nodeinfo lat r)) D (x, true)) as [c g]. unfold move_result in Hm.
    cbn [fst snd] in Hm. unfold move_out. fold (lower lat r).
    destruct g; cbn [andb].
    - destruct Hm as (_ & _ & Hm). destruct (Hm d Hdn) as [E _]. rewrite (E Hd).
      destruct (Z.eqb_spec (nth d x 0) (lo r d)); [reflexivity|].
      destruct (Z.eqb_spec (nth d x 0) (node_max (nodeinfo lat r) d)); reflexivity.
    - destruct (_ =? _); [reflexivity|]. destruct (_ =? _); reflexivity.
  Qed.

  Lemma collect_writes : forall r D d src l dest data, is_rank lat r -> NoDup (D ++ [d]) ->
    (forall j, In j (D ++ [d]) -> (j < n)%nat) -> (forall i, In i l -> 0 <= i < volume (nodeinfo lat r)) ->
    fold_left (collect_site lat (nodeinfo lat r) D d src) l (dest, data) =
    (writes (fun i => match target r (D ++ [d]) i with
                      | Some _ => Some (i, value_at r d src i) | None => None end) l dest,
     writes (fun i => match target r (D ++ [d]) i with
                      | Some c => Some (halo_index (nodeinfo lat r) c, value_at r d src i)
                      | None => None end) l data).
  Proof.
    intros r D d src l. induction l as [|i l IH]; intros dest data Hr HD Hn Hl; [reflexivity|].
    cbn [fold_left]. rewrite collect_site_spec by (auto; apply Hl; left; auto).
    unfold writes. cbn [fold_left]. destruct (target r (D ++ [d]) i);
      rewrite IH by (auto; intros; apply Hl; right; auto); reflexivity.
  Qed.

  Lemma target_out : forall r D i c, is_rank lat r -> NoDup D -> (forall j, In j D -> (j < n)%nat) ->
    0 <= i < volume (nodeinfo lat r) ->
    (target r D i = Some c <-> out lat r D (coordinates (nodeinfo lat r) i) c).
  Proof.
    intros r D i c Hr HD Hn Hi. unfold target.
    destruct (index_held lat r Hv Hr i Hi) as [Hx _].
    set (x := coordinates (nodeinfo lat r) i) in *. assert (Lx := held_length lat r Hv x Hx).
    assert (Hm := moves lat r D x Hr HD Hn Lx).
    destruct (fold_left (move_out (nodeinfo lat r)) D (x, true)) as [c' g]. unfold move_result in Hm.
    cbn [fst snd] in Hm. destruct g; split; intros H; try discriminate.
    - injection H as <-. auto.
    - f_equal. eapply out_det; eauto.
    - elim (Hm _ H).
  Qed.

  (** ** One call *)

  Definition corner_of (r : Z) (D : list nat) (c : list Z) : Prop :=
    forall j, (j < n)%nat -> (In j D <-> outside lat r c j).

  Section Call.
    Variables (D : list nat) (d : nat) (src dest data : rank_store V).
    Hypothesis Hsrc : corner_values D src.
    Hypothesis HD : NoDup (D ++ [d]).
    Hypothesis Hn : forall j, In j (D ++ [d]) -> (j < n)%nat.
    Notation res := (collect lat D d src dest data).

    Lemma last_dir : ~ In d D /\ (d < n)%nat.
    Proof.
      split; [apply NoDup_remove_2 in HD; rewrite app_nil_r in HD; auto|].
      apply Hn, in_app_iff. right. left. auto.
    Qed.

    Lemma target_value : forall r i c z, is_rank lat r -> 0 <= i < volume (nodeinfo lat r) ->
      target r (D ++ [d]) i = Some c -> wraps c z -> value_at r d src i = F z.
    Proof.
      intros r i c z Hr Hi Ht Hz. apply target_out in Ht; auto.
      destruct (index_held lat r Hv Hr i Hi) as [Hx _]. unfold value_at. rewrite (held_length lat r Hv _ Hx).
      destruct last_dir. eapply corner_step; eauto.
    Qed.

    Lemma call_dest : corner_values (D ++ [d]) (fst res).
    Proof.
      intros r x c z Hr Hx Ho Hz. unfold collect. cbn [fst].
      rewrite collect_writes by (auto; intros i Hi; apply loop_sites in Hi; auto). cbn [fst].
      destruct (held_index lat r Hv Hr x Hx) as [Hi Ei].
      assert (Ht : target r (D ++ [d]) (site_index (nodeinfo lat r) x) = Some c).
      { apply target_out; auto. rewrite Ei. auto. }
      apply writes_at.
      - exists (site_index (nodeinfo lat r) x). split; [apply loop_sites; auto|]. rewrite Ht.
        f_equal. f_equal. eapply target_value; eauto.
      - intros i v' _ E. destruct (target r (D ++ [d]) i) as [c'|] eqn:Et; [|discriminate].
        injection E as -> <-. rewrite Ht in Et. injection Et as <-. eapply target_value; eauto.
    Qed.

    Lemma call_written : forall r c z, is_rank lat r -> (forall j, (j < n)%nat -> 1 <= ex r j) ->
      extended lat r c -> ~ above_single_layer lat r c -> corner_of r (D ++ [d]) c -> wraps c z ->
      snd res r (pos r c) = F z.
    Proof.
      intros r c z Hr Hex He Hg Hc Hz. unfold collect. cbn [snd].
      rewrite collect_writes by (auto; intros i Hi; apply loop_sites in Hi; auto). cbn [snd].
      destruct (clamp_out lat Hv r (D ++ [d]) c Hr Hex He Hg Hc) as [Hx Ho].
      set (x := clamp lat r c) in *. destruct (held_index lat r Hv Hr x Hx) as [Hi Ei].
      assert (Ht : target r (D ++ [d]) (site_index (nodeinfo lat r) x) = Some c).
      { apply target_out; auto. rewrite Ei. auto. }
      assert (Lc : length c = n) by (apply extended_spec in He; tauto).
      apply writes_at.
      - exists (site_index (nodeinfo lat r) x). split; [apply loop_sites; auto|]. rewrite Ht, halo_pos by auto.
        f_equal. f_equal. eapply target_value; eauto.
      - intros i v' Hi' E. apply loop_sites in Hi'; auto.
        destruct (target r (D ++ [d]) i) as [c'|] eqn:Et; [|discriminate].
        injection E as E1 <-. assert (Et' := Et). apply target_out in Et'; auto.
        destruct (index_held lat r Hv Hr i Hi') as [Hx' _].
        rewrite halo_pos in E1 by (auto; apply Et').
        apply offset_inj in E1; [|eapply out_extended; eauto|auto]. subst c'. eapply target_value; eauto.
    Qed.

    Lemma call_kept : forall r c, is_rank lat r -> extended lat r c ->
      ~ (corner_of r (D ++ [d]) c /\ ~ above_single_layer lat r c) ->
      snd res r (pos r c) = data r (pos r c).
    Proof.
      intros r c Hr He Hnot. unfold collect. cbn [snd].
      rewrite collect_writes by (auto; intros i Hi; apply loop_sites in Hi; auto). cbn [snd].
      apply writes_other. intros i v Hi E. apply loop_sites in Hi; auto.
      destruct (target r (D ++ [d]) i) as [c'|] eqn:Et; [|discriminate].
      injection E as E1 _. apply target_out in Et; auto.
      destruct (index_held lat r Hv Hr i Hi) as [Hx' _].
      rewrite halo_pos in E1 by (auto; apply Et).
      apply offset_inj in E1; [|eapply out_extended; eauto|auto]. subst c'. apply Hnot. split.
      - intros j Hj. eapply out_outside; eauto.
      - eapply out_good; eauto.
    Qed.
  End Call.

  (** ** The nested loops *)

  (** [c] is reached by the loops over the directions from [n - m] on, below [D]. *)
  Definition reached (r : Z) (D : list nat) (m : nat) (c : list Z) : Prop :=
    (forall j, (j < n - m)%nat -> (In j D <-> outside lat r c j)) /\
    (exists j, (n - m <= j < n)%nat /\ outside lat r c j).

  Lemma reached_split : forall r D m c, (S m <= n)%nat -> (forall j, In j D -> (j < n - S m)%nat) ->
    (reached r D (S m) c <->
      corner_of r (D ++ [n - S m]%nat) c \/ reached r (D ++ [n - S m]%nat) m c \/ reached r D m c).
  Proof.
    intros r D m c Hm HD. set (d := (n - S m)%nat). assert (Ed : (n - m)%nat = S d) by lia.
    assert (Happ : forall j, In j (D ++ [d]) <-> In j D \/ j = d).
    { intros j. rewrite in_app_iff. cbn [In]. intuition. }
    assert (HDd : forall j, In j D -> (j < d)%nat) by auto.
    unfold reached, corner_of. rewrite Ed. fold d. split.
    - intros [H1 (j & Hj & Hjo)].
      destruct (outside_dec lat r c d) as [Hd|Hd].
      + destruct (classic_upper (fun j => outside lat r c j) (S d) n) as [(k & Hk & Hko)|Hno].
        { intros k. apply outside_dec. }
        * right. left. split; [|exists k; auto]. intros i Hi. rewrite Happ.
          destruct (Nat.eq_dec i d) as [->|N]; [tauto|]. rewrite H1 by lia. intuition.
        * left. intros i Hi. rewrite Happ. destruct (Nat.eq_dec i d) as [->|N]; [tauto|].
          destruct (Nat.lt_ge_cases i d) as [L|L].
          -- rewrite H1 by auto. intuition.
          -- split; [intros [I|I]; [apply HDd in I|]; lia|]. intros Ho. elim (Hno i); auto. lia.
      + right. right. split.
        * intros i Hi. destruct (Nat.eq_dec i d) as [->|N]; [split; [intros I; apply HDd in I; lia|tauto]|].
          apply H1. lia.
        * exists j. split; auto. destruct (Nat.eq_dec j d) as [->|]; [tauto|lia].
    - intros [H|[[H1 (j & Hj & Hjo)]|[H1 (j & Hj & Hjo)]]].
      + split.
        * intros i Hi. rewrite <- H by lia. rewrite Happ. intuition. lia.
        * exists d. split; [lia|]. apply H; [lia|]. apply Happ. auto.
      + split.
        * intros i Hi. rewrite <- H1 by lia. rewrite Happ. intuition. lia.
        * exists j. split; auto. lia.
      + split.
        * intros i Hi. apply H1. lia.
        * exists j. split; auto. lia.
  Qed.
End Halo.
