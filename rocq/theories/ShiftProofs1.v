(** C17: shifts. *)
From Verif Require Import Common LayoutModel LayoutSpec LayoutProofs1 LayoutProofs2 LayoutProofs4
  LayoutProofs5 LayoutProofs6 LayoutProofs7 LayoutProofs8.
From Verif Require Import GatherModel ElementModel ElementProps ShiftModel ShiftSpec.

Lemma fold_zupd : forall (V : Type) (g : Z -> V) l (m : Z -> V) i,
  fold_left (fun m i => zupd m i (g i)) l m i = if in_dec Z.eq_dec i l then g i else m i.
Proof.
  induction l as [|x l IH]; intros m i; cbn [fold_left]; auto. rewrite IH.
  destruct (in_dec Z.eq_dec i l) as [Hi|Hi]; destruct (in_dec Z.eq_dec i (x :: l)) as [Hj|Hj]; auto.
  - elim Hj. simpl. auto.
  - destruct Hj as [->|Hj]; [apply zupd_same|tauto].
  - apply zupd_other. intros ->. apply Hj. simpl. auto.
Qed.

Section Shift.
  Context {V : Type}.
  Variable lat : lattice.
  Hypothesis Hv : valid_lattice lat.
  Local Notation ls := (l_size lat).
  Local Notation n := (length (l_size lat)).

  Lemma loop_index_parity : forall r c p, is_rank lat r -> holds lat r c ->
    (In (site_index (nodeinfo lat r) c) (loop_indices (nodeinfo lat r) p) <-> has_parity p c).
  Proof.
    intros r c p Hr Hc. destruct (loop_visits lat r p Hv Hr) as [_ HI].
    destruct (coordinates_inverse lat r Hv Hr) as [I1 I2]. split.
    - intros Hi. apply HI. rewrite <- (I1 c Hc) at 1. apply in_map. auto.
    - intros Hp. assert (Hin : In c (map (coordinates (nodeinfo lat r)) (loop_indices (nodeinfo lat r) p))) by (apply HI; auto).
      apply in_map_iff in Hin. destruct Hin as (i & E & Hi). subst c. destruct (I2 i) as [_ E2]; [|congruence].
      unfold loop_indices in Hi. apply zrange_In in Hi.
      assert (Hev : 0 <= n_even (nodeinfo lat r) <= volume (nodeinfo lat r)).
      { unfold volume. destruct (rank_box _ _ Hv Hr) as (mn & sz & E' & Hl & Hs & _). rewrite E'.
        destruct (box_counts_nonneg mn sz Hl Hs). cbn [n_even n_odd] in *. unfold volume in *. lia. }
      destruct p; cbn [loop_begin loop_end] in Hi; lia.
  Qed.

  (** Contents at the sites of one parity. *)
  Definition rep_on (st : rank_store V) (p : parity) (G : list Z -> V) : Prop :=
    forall r c, is_rank lat r -> holds lat r c -> has_parity p c -> st r (site_index (nodeinfo lat r) c) = G c.

  Definition same_off (p : parity) (st st' : rank_store V) : Prop :=
    forall r c, is_rank lat r -> holds lat r c -> ~ has_parity p c ->
      st' r (site_index (nodeinfo lat r) c) = st r (site_index (nodeinfo lat r) c).

  Lemma copy_sites_ok : forall (f res : rank_store V) F p, represents lat f F ->
    rep_on (copy_sites lat f p res) p F /\ same_off p res (copy_sites lat f p res).
  Proof.
    intros f res F p HF. unfold copy_sites. split; intros r c Hr Hc Hp; rewrite fold_zupd;
      destruct (in_dec Z.eq_dec _ _) as [Hi|Hi]; auto.
    - elim Hi. apply loop_index_parity; auto.
    - apply loop_index_parity in Hi; tauto.
  Qed.

  (** Sizes for which parities alternate. *)
  Definition parity_ok (p : parity) : Prop := p = ALL \/ Forall (fun x => Z.even x = true) ls.

  Lemma nbr_has_parity : forall p c d, parity_ok p -> is_direction ls d -> is_site ls c ->
    has_parity p c -> has_parity (opp_parity p) (neighbour lat c d).
  Proof.
    intros p c d [->|He] Hd Hc Hp; [exact I|].
    assert (E : site_even (neighbour lat c d) <-> ~ site_even c).
    { apply nbr_parity; auto using valid_pos. rewrite Forall_forall in He. apply He. apply nth_In. apply axis_lt. auto. }
    unfold has_parity in *. destruct p; cbn [opp_parity]; tauto || (unfold site_even in *; destruct (Z.eq_dec (zsum c mod 2) 0); tauto).
  Qed.

  Lemma shift_from_ok : forall (src dst : rank_store V) G d p, parity_ok p -> is_direction ls d ->
    rep_on src (opp_parity p) G ->
    rep_on (shift_from lat src d p dst) p (fun c => G (neighbour lat c d)) /\
    same_off p dst (shift_from lat src d p dst).
  Proof.
    intros src dst G d p Hpo Hd HG. unfold shift_from. split; intros r c Hr Hc Hp; rewrite fold_zupd;
      destruct (in_dec Z.eq_dec _ _) as [Hi|Hi]; auto.
    - assert (Hs := holds_is_site lat r c Hv Hr Hc).
      rewrite (proj1 (gather_correct lat Hv V d p src _ Hd (some_field V lat src Hv)) r c Hr Hc Hp).
      assert (Hns : is_site ls (neighbour lat c d)) by (apply nbr_site; auto using valid_pos).
      destruct (owner_unique lat _ Hv Hns) as [R1 R2].
      apply HG; auto. { apply R2; auto. } apply nbr_has_parity; auto.
    - elim Hi. apply loop_index_parity; auto.
    - apply loop_index_parity in Hi; tauto.
  Qed.

  (** ** Displacements *)
  Definition tr (c : list Z) (w : nat -> Z) : list Z :=
    map (fun j => (nth j c 0 + w j) mod nth j ls 0) (seq 0 n).

  Lemma nth_tr : forall c w j, (j < n)%nat -> nth j (tr c w) 0 = (nth j c 0 + w j) mod nth j ls 0.
  Proof.
    intros c w j Hj. unfold tr.
    rewrite (nth_indep _ 0 ((fun j => (nth j c 0 + w j) mod nth j ls 0) 0%nat)) by (rewrite map_length, seq_length; auto).
    rewrite (map_nth (fun j => (nth j c 0 + w j) mod nth j ls 0)). rewrite seq_nth by auto. auto.
  Qed.

  Lemma tr_length : forall c w, length (tr c w) = n.
  Proof. intros. unfold tr. rewrite map_length, seq_length. auto. Qed.

  Lemma tr_ext : forall c w w', (forall j, (j < n)%nat -> w j = w' j) -> tr c w = tr c w'.
  Proof. intros c w w' H. unfold tr. apply map_ext_in. intros j Hj. apply in_seq in Hj. rewrite H; auto. lia. Qed.

  Lemma size_pos : forall j, (j < n)%nat -> 0 < nth j ls 0.
  Proof. intros j Hj. assert (H := valid_pos lat Hv). rewrite Forall_forall in H. apply H, nth_In; auto. Qed.

  Lemma tr_site : forall c w, is_site ls (tr c w).
  Proof.
    intros c w. split; [apply tr_length|]. intros j Hj. rewrite nth_tr by auto. apply Z.mod_pos_bound, size_pos; auto.
  Qed.

  Lemma tr_zero : forall c w, is_site ls c -> (forall j, (j < n)%nat -> w j = 0) -> tr c w = c.
  Proof.
    intros c w [Hl Hc] Hw. apply nth_ext with (d := 0) (d' := 0); rewrite tr_length; auto.
    intros j Hj. rewrite nth_tr, Hw, Z.add_0_r by auto. apply Z.mod_small. auto.
  Qed.

  Lemma tr_tr : forall c w w', tr (tr c w) w' = tr c (fun j => w j + w' j).
  Proof.
    intros c w w'. apply nth_ext with (d := 0) (d' := 0); rewrite !tr_length; auto. intros j Hj.
    assert (Hp := size_pos j Hj).
    rewrite !nth_tr by auto. rewrite Zplus_mod_idemp_l. f_equal. lia.
  Qed.

  Lemma neighbour_tr : forall c d, is_direction ls d -> is_site ls c ->
    neighbour lat c d = tr c (displacement (Z.of_nat n) d).
  Proof.
    intros c d Hd Hc. symmetry. apply neighbour_periodic; auto. split; [apply Hc|]. split; [apply tr_length|].
    intros j Hj. apply nth_tr. auto.
  Qed.

  Lemma neighbour_shift : forall c d w, is_direction ls d -> is_site ls c ->
    tr (neighbour lat c d) w = tr c (fun j => w j + displacement (Z.of_nat n) d j).
  Proof. intros c d w Hd Hc. rewrite neighbour_tr, tr_tr by auto. apply tr_ext. intros. lia. Qed.

  Lemma nth_sub_dir : forall rem d j, is_direction ls d -> length rem = n -> (j < n)%nat ->
    nth j (sub_dir rem d) 0 = nth j rem 0 - displacement (Z.of_nat n) d j.
  Proof.
    intros rem d j Hd Hl Hj. unfold is_direction in Hd. rewrite sub_dir_axis by (rewrite Hl; auto). rewrite Hl.
    rewrite add_at_upd, nth_upd_at by (rewrite Hl; apply axis_lt; auto).
    rewrite displacement_axis by auto. destruct (Nat.eqb_spec j (axis n d)) as [->|]; lia.
  Qed.

  Lemma sub_dir_length : forall rem d, length (sub_dir rem d) = length rem.
  Proof. intros. unfold sub_dir. destruct (is_up_dir _ _); apply add_at_length. Qed.

  (** ** L1 norm *)
  Lemma norm_nonneg : forall v, 0 <= norm_L1 v.
  Proof. unfold norm_L1. induction v; [cbn; lia|]. cbn [map]. rewrite zsum_cons. lia. Qed.

  Lemma norm_add_at : forall k x l, (k < length l)%nat ->
    norm_L1 (add_at k x l) = norm_L1 l - Z.abs (nth k l 0) + Z.abs (nth k l 0 + x).
  Proof.
    unfold norm_L1. induction k as [|k IH]; intros x [|a l] Hk; cbn [length] in Hk; try lia; cbn [add_at map nth]; rewrite !zsum_cons.
    - lia.
    - rewrite IH by lia. lia.
  Qed.

  Lemma norm_zero : forall l, norm_L1 l = 0 <-> forall j, nth j l 0 = 0.
  Proof.
    unfold norm_L1. induction l as [|a l IH]; cbn [map].
    - split; auto. intros _ [|j]; auto.
    - rewrite zsum_cons. assert (H := norm_nonneg l). unfold norm_L1 in H. split.
      + intros E [|j]; cbn [nth]; [lia|]. apply IH. lia.
      + intros E. assert (E0 := E 0%nat). cbn [nth] in E0. assert (zsum (map Z.abs l) = 0); [|lia].
        apply IH. intros j. apply (E (S j)).
  Qed.

  (** [d] is a move towards zero. *)
  Definition good_move (rem : list Z) (d : Z) : Prop :=
    is_direction ls d /\ 0 < nth (axis n d) rem 0 * sgn n d.

  Lemma norm_sub : forall rem d, length rem = n -> good_move rem d -> norm_L1 (sub_dir rem d) = norm_L1 rem - 1.
  Proof.
    intros rem d Hl [Hd Hg]. unfold is_direction in Hd. rewrite sub_dir_axis, Hl by (rewrite Hl; auto).
    rewrite norm_add_at by (rewrite Hl; apply axis_lt; auto). destruct (sgn_cases n d) as [E|E]; rewrite E in *; lia.
  Qed.

  Lemma good_of_sign : forall rem k, (k < n)%nat -> nth k rem 0 <> 0 ->
    let d := if 0 <? nth k rem 0 then Z.of_nat k else opp_dir (Z.of_nat n) (Z.of_nat k) in
    good_move rem d /\ axis n d = k.
  Proof.
    intros rem k Hk Hx. cbv zeta.
    assert (A0 : axis n (Z.of_nat k) = k /\ sgn n (Z.of_nat k) = 1).
    { unfold axis, sgn, abs_dir, is_up_dir. replace (Z.of_nat k <? Z.of_nat n) with true by lia. split; lia. }
    destruct A0 as [A0 S0].
    destruct (Z.ltb_spec 0 (nth k rem 0)).
    - split; auto. split; [unfold is_direction; lia|]. rewrite A0, S0. lia.
    - assert (A1 := axis_opp n (Z.of_nat k) ltac:(lia)). assert (S1 := sgn_opp n (Z.of_nat k) ltac:(lia)).
      split; [|congruence]. split; [unfold is_direction; apply opp_dir_range; lia|]. rewrite A1, A0, S1, S0. lia.
  Qed.

  Lemma find_first_good : forall l a v, a ++ l = v -> length v = n -> (forall j, (j < length a)%nat -> nth j v 0 = 0) ->
    norm_L1 v <> 0 -> exists d, find_first lat (Z.of_nat (length a)) l = Some d /\ good_move v d.
  Proof.
    induction l as [|x l IH]; intros a v E Hl Ha Hn; cbn [find_first].
    - rewrite app_nil_r in E. subst a. elim Hn. apply norm_zero. intros j.
      destruct (Nat.lt_ge_cases j (length v)); [auto|apply nth_overflow; auto].
    - assert (Hx : nth (length a) v 0 = x) by (subst v; rewrite app_nth2, Nat.sub_diag by lia; auto).
      assert (Hk : (length a < n)%nat) by (rewrite <- Hl, <- E, app_length; cbn [length]; lia).
      assert (G := good_of_sign v (length a) Hk). cbv zeta in G. rewrite Hx in G.
      destruct (Z.ltb_spec 0 x).
      + exists (Z.of_nat (length a)). split; auto. apply G. lia.
      + destruct (Z.ltb_spec x 0).
        * exists (opp_dir (Z.of_nat n) (Z.of_nat (length a))). split; auto. apply G. lia.
        * destruct (IH (a ++ [x]) v) as (d & D1 & D2); auto.
          { rewrite <- app_assoc. auto. }
          { rewrite app_length. cbn [length]. intros j Hj. destruct (Nat.eq_dec j (length a)) as [->|]; [lia|]. apply Ha. lia. }
          rewrite app_length in D1. cbn [length] in D1. exists d. split; auto. rewrite <- D1. f_equal. lia.
  Qed.

  Lemma find_ready_good : forall ready l a v d, a ++ l = v -> length v = n ->
    find_ready lat ready (Z.of_nat (length a)) l = Some d -> good_move v d.
  Proof.
    intros ready. induction l as [|x l IH]; intros a v d E Hl Hf; cbn [find_ready] in Hf; [discriminate|].
    assert (Hx : nth (length a) v 0 = x) by (subst v; rewrite app_nth2, Nat.sub_diag by lia; auto).
    assert (Hk : (length a < n)%nat) by (rewrite <- Hl, <- E, app_length; cbn [length]; lia).
    assert (G := good_of_sign v (length a) Hk). cbv zeta in G. rewrite Hx in G.
    destruct ((0 <? x) && ready (Z.of_nat (length a))) eqn:E1.
    - inversion Hf; subst d. apply andb_true_iff in E1. destruct E1 as [E1 _]. rewrite E1 in G. apply G. lia.
    - destruct ((x <? 0) && ready (opp_dir (Z.of_nat n) (Z.of_nat (length a)))) eqn:E2.
      + inversion Hf; subst d. apply andb_true_iff in E2. destruct E2 as [E2 _].
        replace (0 <? x) with false in G by lia. apply G. lia.
      + apply (IH (a ++ [x]) v d); auto. { rewrite <- app_assoc. auto. }
        rewrite app_length. cbn [length]. rewrite <- Hf. f_equal. lia.
  Qed.

  (** ** The loops *)
  Variables (F : list Z -> V) (v : list Z) (par : parity) (res0 : rank_store V).
  Hypothesis Hpar : parity_ok par.

  Definition inv (s : shift_state V) : Prop :=
    length (s_rem s) = n /\
    s_is_res s = Z.even (norm_L1 (s_rem s)) /\
    s_par s = (if Z.even (norm_L1 (s_rem s)) then opp_parity par else par) /\
    rep_on (s_from s) (opp_parity (s_par s)) (fun c => F (tr c (fun j => nth j v 0 - nth j (s_rem s) 0))) /\
    same_off par res0 (if s_is_res s then s_from s else s_to s).

  Lemma opp_opp : forall p, opp_parity (opp_parity p) = p.
  Proof. destruct p; auto. Qed.

  Lemma parity_ok_opp : forall p, parity_ok p -> parity_ok (opp_parity p).
  Proof. intros p [->|H]; [left; auto|right; auto]. Qed.

  Lemma same_off_trans : forall p a b c, same_off p a b -> same_off p b c -> same_off p a c.
  Proof. intros p a b c H1 H2 r x Hr Hx Hp. rewrite H2, H1; auto. Qed.

  Lemma rep_on_ext : forall st p G G', rep_on st p G -> (forall c, is_site ls c -> G c = G' c) -> rep_on st p G'.
  Proof. intros st p G G' H E r c Hr Hc Hp. rewrite (H r c) by auto. apply E. apply (holds_is_site lat r); auto. Qed.

  Lemma inv_step : forall s d, inv s -> good_move (s_rem s) d ->
    inv (mkShift (shift_from lat (s_from s) d (s_par s) (s_to s)) (s_from s) (negb (s_is_res s))
                 (opp_parity (s_par s)) (sub_dir (s_rem s) d)).
  Proof.
    intros s d (I1 & I2 & I3 & I4 & I5) Hg. assert (Hn := norm_sub _ _ I1 Hg). destruct Hg as [Hd Hg].
    assert (Hp : parity_ok (s_par s)). { rewrite I3. destruct (Z.even _); auto using parity_ok_opp. }
    destruct (shift_from_ok (s_from s) (s_to s) _ d (s_par s) Hp Hd I4) as [A1 A2].
    unfold inv. cbn [s_rem s_is_res s_par s_from s_to]. rewrite Hn.
    assert (Ev : Z.even (norm_L1 (s_rem s) - 1) = negb (Z.even (norm_L1 (s_rem s)))).
    { rewrite Z.even_sub. cbn. destruct (Z.even _); auto. }
    rewrite Ev. split; [rewrite sub_dir_length; auto|]. split; [rewrite I2; auto|].
    split; [rewrite I3; destruct (Z.even _); cbn [negb]; rewrite ?opp_opp; auto|]. split.
    - rewrite opp_opp. eapply rep_on_ext; [exact A1|]. intros c Hc. cbv beta. rewrite neighbour_shift by auto.
      f_equal. apply tr_ext. intros j Hj. rewrite nth_sub_dir by auto. lia.
    - destruct (s_is_res s) eqn:Er; cbn [negb]; auto.
      rewrite <- I2 in I3. cbv match in I3. rewrite I3 in *. eapply same_off_trans; [exact I5|exact A2].
  Qed.

  Lemma while_ok : forall fuel k d s, inv s -> (k < n)%nat -> is_direction ls d -> axis n d = k ->
    0 <= nth k (s_rem s) 0 * sgn n d -> Z.abs (nth k (s_rem s) 0) <= Z.of_nat fuel ->
    exists s', while_moves lat fuel k d s = Some s' /\ inv s' /\ nth k (s_rem s') 0 = 0 /\
      forall j, (j < n)%nat -> j <> k -> nth j (s_rem s') 0 = nth j (s_rem s) 0.
  Proof.
    induction fuel as [|fuel IH]; intros k d s Hi Hk Hd Ha Hs Hf; cbn [while_moves];
      destruct (Z.eqb_spec (nth k (s_rem s) 0) 0) as [E|E]; try (exists s; auto; fail); [lia|].
    assert (Hg : good_move (s_rem s) d).
    { split; auto. rewrite Ha. destruct (sgn_cases n d) as [S|S]; rewrite S in *; lia. }
    assert (Hi' := inv_step s d Hi Hg). assert (Hl : length (s_rem s) = n) by apply Hi.
    assert (Hnk : nth k (sub_dir (s_rem s) d) 0 = nth k (s_rem s) 0 - sgn n d).
    { rewrite nth_sub_dir, displacement_axis by auto. rewrite Ha, Nat.eqb_refl. auto. }
    destruct (IH k d _ Hi' Hk Hd Ha) as (s' & A & B & C & D); cbn [s_rem] in *.
    { rewrite Hnk. destruct (sgn_cases n d) as [S|S]; rewrite S in *; lia. }
    { rewrite Hnk. destruct (sgn_cases n d) as [S|S]; rewrite S in *; lia. }
    exists s'. split; auto. split; auto. split; auto. intros j Hj Hjk. rewrite D by auto.
    rewrite nth_sub_dir, displacement_axis by auto. rewrite Ha. destruct (Nat.eqb_spec j k); [tauto|lia].
  Qed.

  Lemma all_ok : forall ks s, inv s -> (forall k, In k ks -> (k < n)%nat) ->
    exists s', all_moves lat ks s = Some s' /\ inv s' /\
      forall j, (j < n)%nat -> In j ks \/ nth j (s_rem s) 0 = 0 -> nth j (s_rem s') 0 = 0.
  Proof.
    induction ks as [|k ks IH]; intros s Hi Hk; cbn [all_moves].
    - exists s. split; auto. split; auto. intros j Hj [[]|E]; auto.
    - assert (Hkn : (k < n)%nat) by (apply Hk; simpl; auto).
      destruct (Z.eqb_spec (nth k (s_rem s) 0) 0) as [E|E].
      + destruct (IH s Hi) as (s' & A & B & C); [intros; apply Hk; simpl; auto|].
        exists s'. split; auto. split; auto. intros j Hj [[<-|Hin]|E']; apply C; auto.
      + destruct (good_of_sign (s_rem s) k Hkn E) as [[Gd Gs] Ga]. cbv zeta in *.
        destruct (while_ok (Z.to_nat (Z.abs (nth k (s_rem s) 0))) k _ s Hi Hkn Gd Ga) as (s1 & A1 & B1 & C1 & D1).
        { rewrite Ga in Gs. lia. } { lia. }
        cbv zeta. rewrite A1. destruct (IH s1 B1) as (s' & A & B & C); [intros; apply Hk; simpl; auto|].
        exists s'. split; auto. split; auto. intros j Hj Hor. apply C; auto.
        destruct (Nat.eq_dec j k) as [->|Hjk]; [auto|]. rewrite D1 by auto.
        destruct Hor as [[|]|]; auto. congruence.
  Qed.
End Shift.

Lemma shift_ok : forall (V : Type) lat, valid_lattice lat ->
  forall ready (f res r1 : rank_store V) F v par, represents lat f F -> length v = length (l_size lat) ->
  parity_ok lat par ->
  exists out, shift lat ready f v par res r1 = Some out /\
    rep_on lat out par (fun c => F (translate (l_size lat) c v)) /\ same_off lat par res out.
Proof.
  intros V lat Hv ready f res r1 F v par HF Hl Hp. unfold shift.
  destruct (Z.eqb_spec (norm_L1 v) 0) as [E0|E0].
  - destruct (copy_sites_ok lat Hv f res F par HF) as [A B]. eexists. split; [reflexivity|]. split; auto.
    eapply rep_on_ext; [auto|exact A|]. intros c Hc. change (translate (l_size lat) c v) with (tr lat c (fun j => nth j v 0)).
    rewrite tr_zero; auto. intros j _. apply norm_zero. auto.
  - set (par_s := if norm_L1 v mod 2 =? 0 then opp_parity par else par).
    assert (Hmd : exists mdir, (match find_ready lat (ready par_s) 0 v with Some d => Some d | None => find_first lat 0 v end) = Some mdir
              /\ good_move lat v mdir).
    { destruct (find_ready lat (ready par_s) 0 v) as [d|] eqn:E.
      - exists d. split; auto. apply (find_ready_good lat (ready par_s) v [] v d); auto.
      - apply (find_first_good lat v [] v); auto. cbn. intros; lia. }
    cbv zeta. fold par_s. destruct Hmd as (mdir & -> & Hg).
    assert (Hps : parity_ok lat par_s) by (unfold par_s; destruct (_ =? 0); auto using parity_ok_opp).
    assert (HFp : rep_on lat f (opp_parity par_s) F) by (intros r c Hr Hc _; apply HF; auto).
    assert (Hnn := norm_nonneg v). assert (Hns := norm_sub lat v mdir Hl Hg).
    destruct (Z.eqb_spec (norm_L1 v) 1) as [E1|E1].
    + assert (Ep : par_s = par) by (unfold par_s; rewrite E1; auto). rewrite Ep in *.
      destruct (shift_from_ok lat Hv f res F mdir par Hp (proj1 Hg) HFp) as [A B].
      eexists. split; [reflexivity|]. split; auto. eapply rep_on_ext; [auto|exact A|].
      intros c Hc. cbv beta. rewrite neighbour_tr by (auto; apply Hg). f_equal.
      change (translate (l_size lat) c v) with (tr lat c (fun j => nth j v 0)). apply tr_ext.
      intros j Hj. assert (X := nth_sub_dir lat v mdir j (proj1 Hg) Hl Hj).
      assert (Z0 : nth j (sub_dir v mdir) 0 = 0) by (apply norm_zero; lia). lia.
    + assert (Em : (norm_L1 v mod 2 =? 0) = Z.even (norm_L1 v)).
      { rewrite even_mod2. auto. }
      assert (Eps : par_s = if Z.even (norm_L1 v) then opp_parity par else par) by (unfold par_s; rewrite Em; auto).
      rewrite Em. clearbody par_s.
      set (fres := negb (Z.even (norm_L1 v))).
      assert (Hinv : inv lat F v par res (mkShift (shift_from lat f mdir par_s (if fres then res else r1))
                 (if fres then r1 else res) fres (opp_parity par_s) (sub_dir v mdir))).
      { destruct (shift_from_ok lat Hv f (if fres then res else r1) F mdir par_s Hps (proj1 Hg) HFp) as [A B].
        assert (Ev : Z.even (norm_L1 v - 1) = fres).
        { unfold fres. rewrite Z.even_sub. cbn. destruct (Z.even _); auto. }
        unfold inv. cbn [s_rem s_is_res s_par s_from s_to]. rewrite Hns, Ev.
        split; [rewrite sub_dir_length; auto|]. split; auto.
        split; [rewrite Eps; unfold fres; destruct (Z.even (norm_L1 v)); cbn [negb]; rewrite ?opp_opp; auto|]. split.
        - rewrite opp_opp. eapply rep_on_ext; [auto|exact A|]. intros c Hc. cbv beta.
          rewrite neighbour_tr by (auto; apply Hg). f_equal. apply tr_ext. intros j Hj.
          rewrite (nth_sub_dir lat v mdir j (proj1 Hg) Hl Hj). lia.
        - rewrite Eps in *. unfold fres in *. destruct (Z.even (norm_L1 v)); cbn [negb] in *; auto. intros r c _ _ _. auto. }
      destruct (all_ok lat Hv F v par res Hp (seq 0 (length v)) _ Hinv) as (s' & A & (I1 & I2 & I3 & I4 & I5) & C).
      { intros k Hk. apply in_seq in Hk. lia. }
      rewrite A. assert (Z0 : norm_L1 (s_rem s') = 0).
      { apply norm_zero. intros j. destruct (Nat.lt_ge_cases j (length (l_size lat))) as [Hj|Hj].
        - apply C; auto. left. apply in_seq. lia.
        - apply nth_overflow. lia. }
      rewrite Z0 in I2, I3. cbn in I2, I3. rewrite I2 in *. rewrite I3, opp_opp in I4.
      eexists. split; [reflexivity|]. split; auto. eapply rep_on_ext; [auto|exact I4|].
      intros c Hc. cbv beta. f_equal. change (translate (l_size lat) c v) with (tr lat c (fun j => nth j v 0)).
      apply tr_ext. intros j Hj. rewrite (proj1 (norm_zero _) Z0). lia.
Qed.
