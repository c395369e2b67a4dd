(** The vectorised site index inside one box: lanes and places. *)
From Verif Require Import Common LayoutModel LayoutSpec LayoutProofs1 LayoutProofs2 LayoutProofs4
  VlayoutModel VlayoutSpec.

Inductive vgrid : list Z -> list Z -> Prop :=
| vg_nil : vgrid [] []
| vg_cons : forall n s dv ss, 0 < n -> 0 < s -> (1 < n -> s mod 2 = 0) -> vgrid dv ss ->
    vgrid (n :: dv) (s :: ss).

Fixpoint cmul (a b : list Z) : list Z :=
  match a, b with x :: a', y :: b' => x * y :: cmul a' b' | _, _ => [] end.

(** Subnode coordinates and offsets. *)
Fixpoint qd (ss mn c : list Z) : list Z :=
  match ss, mn, c with
  | s :: ss', m :: mn', x :: c' => (x - m) / s :: qd ss' mn' c'
  | _, _, _ => []
  end.
Fixpoint base (ss mn c : list Z) : list Z :=
  match ss, mn, c with
  | s :: ss', m :: mn', x :: c' => m + (x - m) mod s :: base ss' mn' c'
  | _, _, _ => []
  end.

(** Site with given subnode coordinates and base. *)
Fixpoint join (ss q b : list Z) : list Z :=
  match ss, q, b with
  | s :: ss', x :: q', y :: b' => y + x * s :: join ss' q' b'
  | _, _, _ => []
  end.

Definition swz (b q : Z) : Z := q / 2 + (q mod 2) * (b / 2).

Fixpoint lanef (m j : nat) (top : Z) (dv q : list Z) : Z :=
  match dv, q with
  | n :: dv', x :: q' =>
      let acc := lanef m (S j) top dv' q' in if (j =? m)%nat then acc else acc * n + x
  | _, _ => top
  end.

(** Product of the divisions except the merged one. *)
Fixpoint rprod (m j : nat) (dv : list Z) : Z :=
  match dv with
  | n :: dv' => (if (j =? m)%nat then 1 else n) * rprod m (S j) dv'
  | [] => 1
  end.

Lemma vgrid_length : forall dv ss, vgrid dv ss -> length dv = length ss.
Proof. induction 1; simpl; auto. Qed.

Lemma cmul_length : forall dv ss, vgrid dv ss -> length (cmul dv ss) = length ss.
Proof. induction 1; simpl; auto. Qed.

Lemma vgrid_pos : forall dv ss, vgrid dv ss -> Forall (fun s => 0 <= s) ss /\ Forall (fun s => 0 < s) dv /\
  Forall (fun s => 0 <= s) (cmul dv ss).
Proof. induction 1; simpl; repeat split; try constructor; try lia; tauto. Qed.

Lemma zprod_cmul : forall dv ss, vgrid dv ss -> zprod (cmul dv ss) = zprod dv * zprod ss.
Proof. induction 1; cbn [cmul]; rewrite ?zprod_cons; [reflexivity|]. rewrite IHvgrid. ring. Qed.

Lemma rprod_pos : forall m dv j, Forall (fun s => 0 < s) dv -> 0 < rprod m j dv.
Proof.
  intros m dv j H. revert j. induction H; intros; cbn [rprod]; [lia|].
  specialize (IHForall (S j)). destruct (j =? m)%nat; nia.
Qed.

Lemma rprod_beyond : forall m dv j, (m < j)%nat -> rprod m j dv = zprod dv.
Proof.
  induction dv; intros; cbn [rprod]; [reflexivity|]. rewrite zprod_cons, IHdv by lia.
  destruct (Nat.eqb_spec j m); [lia|auto].
Qed.

Lemma rprod_zprod : forall m dv j, (j <= m < j + length dv)%nat ->
  zprod dv = rprod m j dv * nth (m - j) dv 0.
Proof.
  induction dv; cbn [length]; intros j Hj; [lia|]. cbn [rprod]. rewrite zprod_cons.
  destruct (Nat.eqb_spec j m).
  - subst. rewrite Nat.sub_diag. cbn [nth]. rewrite rprod_beyond by lia. ring.
  - rewrite (IHdv (S j)) by lia. replace (m - j)%nat with (S (m - S j)) by lia. cbn [nth]. ring.
Qed.

Lemma lanef_range : forall m dv q j t T, Forall2 (fun n x => 0 <= x < n) dv q -> 0 <= t < T ->
  0 <= lanef m j t dv q < T * rprod m j dv.
Proof.
  intros m dv q j t T H. revert j. induction H; intros j Ht; cbn [lanef rprod]; [lia|].
  specialize (IHForall2 (S j) Ht). destruct (j =? m)%nat; [lia|]. nia.
Qed.

Lemma digit_inj : forall b x y u v, 0 <= x < b -> 0 <= y < b -> x + b * u = y + b * v -> x = y /\ u = v.
Proof. intros. assert (u = v) by nia. split; nia. Qed.

Lemma lanef_inj : forall m dv q q' j t t', Forall2 (fun n x => 0 <= x < n) dv q ->
  Forall2 (fun n x => 0 <= x < n) dv q' -> lanef m j t dv q = lanef m j t' dv q' ->
  t = t' /\ forall k, (k < length dv)%nat -> (j + k <> m)%nat -> nth k q 0 = nth k q' 0.
Proof.
  intros m dv q q' j t t' H. revert q' j. induction H; intros q' j H' E.
  - inversion H'; subst. cbn in E. split; auto.
  - inversion H'; subst. cbn [lanef] in E.
    destruct (Nat.eqb_spec j m).
    + apply IHForall2 in E; auto. destruct E as [E1 E2]. split; auto. intros k Hk Hm.
      destruct k; [lia|]. cbn [nth length] in *. apply E2; lia.
    + assert (E0 : lanef m (S j) t l l' = lanef m (S j) t' l l'0 /\ y = y0).
      { apply and_comm. apply (digit_inj x); auto. lia. }
      destruct E0 as [E0 ->]. apply IHForall2 in E0; auto. destruct E0 as [E1 E2]. split; auto.
      intros k Hk Hm. destruct k; [auto|]. cbn [nth length] in *. apply E2; lia.
Qed.

Lemma in_head : forall a n b, (0 <=? a) && (a <? n) && b = true -> 0 <= a < n /\ b = true.
Proof. intros a n b H. apply andb_true_iff in H. destruct H. split; auto. lia. Qed.

(** The value of position m is not used. *)
Lemma lanef_ext : forall m dv q q' j t, length q = length q' ->
  (forall k, (k < length q)%nat -> (j + k <> m)%nat -> nth k q 0 = nth k q' 0) ->
  lanef m j t dv q = lanef m j t dv q'.
Proof.
  induction dv; intros q q' j t Hl H; [destruct q, q'; auto|].
  destruct q as [|x q], q' as [|x' q']; try discriminate; auto. cbn [lanef]. cbn [length] in *.
  rewrite (IHdv q q') by (first [lia | intros k Hk Hm; apply (H (S k)); lia]).
  destruct (Nat.eqb_spec j m); auto. specialize (H 0%nat ltac:(lia) ltac:(lia)). cbn in H. lia.
Qed.

Lemma lanef_zero : forall m dv j, lanef m j 0 dv (map (fun _ => 0) dv) = 0.
Proof. induction dv; intros; cbn [lanef map]; auto. rewrite IHdv. destruct (j =? m)%nat; lia. Qed.

Lemma swz_range : forall b q, b mod 2 = 0 -> 0 <= q < b -> 0 <= swz b q < b.
Proof. intros. unfold swz. nia. Qed.

Lemma swz_inj : forall b q q', b mod 2 = 0 -> 0 <= q < b -> 0 <= q' < b -> swz b q = swz b q' -> q = q'.
Proof.
  intros b q q' Hb Hq Hq' E. unfold swz in E.
  assert (0 <= q / 2 < b / 2) by lia. assert (0 <= q' / 2 < b / 2) by lia.
  assert (q mod 2 = 0 \/ q mod 2 = 1) by lia. assert (q' mod 2 = 0 \/ q' mod 2 = 1) by lia.
  destruct H1 as [E1|E1], H2 as [E2|E2]; rewrite E1, E2 in E; lia.
Qed.

Definition vin (dv ss mn c : list Z) : Prop := in_box mn (cmul dv ss) c = true.

Lemma vin_length : forall dv ss mn, vgrid dv ss -> length mn = length ss -> forall c, vin dv ss mn c -> length c = length ss.
Proof. intros dv ss mn Hg Hmn c H. apply in_box_length in H. lia. Qed.

Lemma qd_length : forall dv ss mn, vgrid dv ss -> length mn = length ss -> forall c, vin dv ss mn c -> length (qd ss mn c) = length ss.
Proof.
  intros dv ss mn Hg Hmn c H. apply vin_length in H; auto. clear Hg. revert mn c Hmn H. induction ss; intros [|] [|]; simpl; intros; try lia.
  f_equal. apply IHss; lia.
Qed.

Lemma base_length : forall dv ss mn, vgrid dv ss -> length mn = length ss -> forall c, vin dv ss mn c -> length (base ss mn c) = length ss.
Proof.
  intros dv ss mn Hg Hmn c H. apply vin_length in H; auto. clear Hg. revert mn c Hmn H. induction ss; intros [|] [|]; simpl; intros; try lia.
  f_equal. apply IHss; lia.
Qed.

Lemma qd_nth : forall dv ss mn, vgrid dv ss -> length mn = length ss -> forall c j, vin dv ss mn c -> (j < length ss)%nat ->
  nth j (qd ss mn c) 0 = (nth j c 0 - nth j mn 0) / nth j ss 0.
Proof.
  intros dv ss mn Hg Hmn c j H. apply vin_length in H; auto. clear Hg. revert mn c j Hmn H. induction ss; intros [|] [|] j; simpl; intros; try lia.
  destruct j; auto. apply IHss; lia.
Qed.

Lemma base_nth : forall dv ss mn, vgrid dv ss -> length mn = length ss -> forall c j, vin dv ss mn c -> (j < length ss)%nat ->
  nth j (base ss mn c) 0 = nth j mn 0 + (nth j c 0 - nth j mn 0) mod nth j ss 0.
Proof.
  intros dv ss mn Hg Hmn c j H. apply vin_length in H; auto. clear Hg. revert mn c j Hmn H. induction ss; intros [|] [|] j; simpl; intros; try lia.
  destruct j; auto. apply IHss; lia.
Qed.

Lemma qd_range : forall dv ss mn, vgrid dv ss -> length mn = length ss -> forall c, vin dv ss mn c -> Forall2 (fun n x => 0 <= x < n) dv (qd ss mn c).
Proof.
  unfold vin. intros dv ss mn Hg. revert mn. induction Hg; intros mn Hmn c H'; destruct mn as [|m0 mn]; try discriminate;
    destruct c as [|x c]; cbn [in_box cmul] in H'; try discriminate; [constructor|].
  apply in_head in H'. destruct H' as [Hx H'].
  cbn [qd]. constructor.
  - split; [apply Z.div_pos; lia|apply Z.div_lt_upper_bound; [lia|]]. lia.
  - apply IHHg; [simpl in Hmn; lia|auto].
Qed.

Lemma base_in : forall dv ss mn, vgrid dv ss -> length mn = length ss -> forall c, vin dv ss mn c -> in_box mn ss (base ss mn c) = true.
Proof.
  unfold vin. intros dv ss mn Hg. revert mn. induction Hg; intros mn Hmn c H'; destruct mn as [|m0 mn]; try discriminate;
    destruct c as [|x c]; cbn [in_box cmul] in H'; try discriminate; [reflexivity|].
  apply in_head in H'. destruct H' as [Hx H'].
  cbn [base in_box]. rewrite IHHg by (first [assumption|simpl in Hmn; lia]).
  assert (B := Z.mod_pos_bound (x - m0) s ltac:(lia)). lia.
Qed.

Lemma join_self : forall dv ss mn, vgrid dv ss -> length mn = length ss -> forall c, vin dv ss mn c -> join ss (qd ss mn c) (base ss mn c) = c.
Proof.
  unfold vin. intros dv ss mn Hg. revert mn. induction Hg; intros mn Hmn c H'; destruct mn as [|m0 mn]; try discriminate;
    destruct c as [|x c]; cbn [in_box cmul] in H'; try discriminate; [reflexivity|].
  apply in_head in H'. destruct H' as [Hx H'].
  cbn [qd base join]. rewrite IHHg by (first [assumption|simpl in Hmn; lia]). f_equal.
  assert (B := Z.div_mod (x - m0) s ltac:(lia)). lia.
Qed.

Lemma join_spec : forall dv ss mn, vgrid dv ss -> length mn = length ss -> forall q b, Forall2 (fun n x => 0 <= x < n) dv q -> in_box mn ss b = true ->
  vin dv ss mn (join ss q b) /\ qd ss mn (join ss q b) = q /\ base ss mn (join ss q b) = b.
Proof.
  unfold vin. intros dv ss mn Hg. revert mn. induction Hg; intros mn Hmn q b H1' H2'; destruct mn as [|m0 mn]; try discriminate;
    destruct b as [|x b]; cbn [in_box] in H2'; try discriminate; inversion H1'; subst; cbn [join]; [auto|].
  apply in_head in H2'. destruct H2' as [Hx H2'].
  destruct (IHHg mn ltac:(simpl in Hmn; lia) l' b H6 H2') as (E1 & E2 & E3).
  cbn [qd base cmul in_box]. rewrite E1, E2, E3. repeat split.
  - nia.
  - f_equal. replace (x + y * s - m0) with ((x - m0) + y * s) by ring. rewrite Z.div_add by lia.
    rewrite Z.div_small by lia. lia.
  - f_equal. replace (x + y * s - m0) with ((x - m0) + y * s) by ring. rewrite Z.mod_add by lia.
    rewrite Z.mod_small by lia. lia.
Qed.

(** The parity of a site is that of its place in the subnode. *)
Lemma base_parity : forall dv ss mn, vgrid dv ss -> length mn = length ss -> forall c, vin dv ss mn c -> even_site (base ss mn c) = even_site c.
Proof.
  unfold vin. intros dv ss mn Hg. revert mn. induction Hg; intros mn Hmn c H'; destruct mn as [|m0 mn]; try discriminate;
    destruct c as [|x c]; cbn [in_box cmul] in H'; try discriminate; [reflexivity|].
  apply in_head in H'. destruct H' as [Hx H'].
  cbn [base]. rewrite !even_site_cons, IHHg by (first [assumption|simpl in Hmn; lia]). f_equal.
  assert (B := Z.div_mod (x - m0) s ltac:(lia)).
  destruct (Z.eq_dec n 1) as [->|].
  - rewrite Z.mod_small by lia. f_equal. lia.
  - assert (Hs : s mod 2 = 0) by (apply H1; lia).
    rewrite !even_mod2. f_equal. set (k := (x - m0) / s) in *. set (rr := (x - m0) mod s) in *.
    assert (x = m0 + rr + s * k) by lia.
    assert (s = 2 * (s / 2)) by lia. rewrite H2, H3.
    replace (m0 + rr + 2 * (s / 2) * k) with (m0 + rr + (s / 2 * k) * 2) by ring.
    rewrite Z.mod_add by lia. auto.
Qed.

Lemma inner_loop_base : forall dv ss mn, vgrid dv ss -> length mn = length ss -> forall c, vin dv ss mn c -> inner_loop ss mn c = logical_index_acc 1 mn ss (base ss mn c).
Proof.
  unfold vin. intros dv ss mn Hg. revert mn. induction Hg; intros mn Hmn c H'; destruct mn as [|m0 mn]; try discriminate;
    destruct c as [|x c]; cbn [in_box cmul] in H'; try discriminate; [reflexivity|].
  apply in_head in H'. destruct H' as [Hx H'].
  cbn [base inner_loop]. rewrite logical_index_cons, IHHg by (first [assumption|simpl in Hmn; lia]). lia.
Qed.

Lemma subl_loop_lanef : forall m dv ss mn, vgrid dv ss -> length mn = length ss -> forall c j t, vin dv ss mn c -> subl_loop m j t dv ss mn c = lanef m j t dv (qd ss mn c).
Proof.
  unfold vin. intros m dv ss mn Hg. revert mn. induction Hg; intros mn Hmn c j t H'; destruct mn as [|m0 mn]; try discriminate;
    destruct c as [|x c]; cbn [in_box cmul] in H'; try discriminate; [reflexivity|].
  apply in_head in H'. destruct H' as [Hx H'].
  cbn [qd subl_loop lanef]. rewrite IHHg by (first [assumption|simpl in Hmn; lia]). auto.
Qed.
