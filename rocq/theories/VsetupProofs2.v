From Coq Require Import Znumtheory.
From Verif Require Import Common LayoutModel LayoutSpec LayoutProofs1 LayoutProofs2 LayoutProofs3 SetupModel SetupProofs1 SetupProofs2
  VlayoutModel VlayoutSpec VsetupModel VsetupProofs1.

Lemma vstart_length : forall ls nn g, length (vstart_sizes ls nn g) = length ls.
Proof. intros. unfold vstart_sizes. rewrite map_length, seq_length. auto. Qed.
Lemma vstart_nth : forall ls nn g j, (j < length ls)%nat ->
  nth j (vstart_sizes ls nn g) 0 = if is_dir g j then nsize ls nn j else nth j ls 0.
Proof.
  intros ls nn g j Hj. unfold vstart_sizes.
  set (F := fun d => if is_dir g d then nsize ls nn d else nth d ls 1).
  rewrite (nth_indep _ 0 (F 0%nat)) by (rewrite map_length, seq_length; auto).
  rewrite map_nth, seq_nth by auto. cbn [plus]. unfold F. rewrite (nth_1_0 ls j Hj). reflexivity.
Qed.

Lemma prod_divides : forall a b, length a = length b -> (forall j, (j < length a)%nat -> (nth j a 0 | nth j b 0)) -> (zprod a | zprod b).
Proof.
  induction a as [|x a IH]; intros [|y b] Hl H; try discriminate; [exists 1; auto|].
  rewrite !zprod_cons. destruct (H 0%nat ltac:(cbn; lia)) as (u & Hu). cbn in Hu.
  destruct (IH b ltac:(cbn in Hl; lia) (fun j Hj => H (S j) ltac:(cbn; lia))) as (v & Hv). exists (u * v). rewrite Hu, Hv. ring.
Qed.

Section Attempt.
  Variables (ls : list Z) (nn nsub : Z) (fs : list Z) (g : option nat).
  Hypothesis Hls : Forall (fun x => 0 < x) ls.
  Hypothesis Hn : 0 < nn.
  Hypothesis Hf : zprod fs = nn.
  Hypothesis Hp : Forall prime fs.
  Hypothesis Hg : forall k, g = Some k -> (k < length ls)%nat.
  Hypothesis Hsub : 0 < nsub.

  Lemma sliced : forall sz dv, vslice g fs (vstart_sizes ls nn g) (map (fun _ => 1) ls) = Some (sz, dv) ->
      length sz = length ls /\ length dv = length ls /\
      Forall (fun x => 0 < x) sz /\ Forall (fun x => 0 < x) dv /\ zprod dv = nn /\
      (forall j, (j < length ls)%nat -> g <> Some j -> nth j sz 0 * nth j dv 0 = nth j ls 0) /\
      (forall m, g = Some m -> nth m sz 0 * nth m dv 0 = nsize ls nn m /\
        nth m ls 0 <= nsize ls nn m < nth m ls 0 + nth m dv 0 /\ (nth m dv 0 = 1 \/ 3 < nth m sz 0)).
  Proof.
    intros sz dv E.
    apply vslice_ok in E.
    2:{ apply Forall_forall. intros p Hi. rewrite Forall_forall in Hp. assert (X := prime_ge_2 p (Hp p Hi)). lia. }
    2:{ rewrite map_length, vstart_length. auto. }
    2:{ apply nth_pos_Forall. rewrite vstart_length. intros j Hj. rewrite vstart_nth by auto.
        assert (X := pos_nth ls j Hls Hj). destruct (nsize_ok ls nn j Hn) as (N1 & _). rewrite nth_1_0 in N1 by auto.
        destruct (is_dir g j); lia. }
    2:{ apply nth_pos_Forall. rewrite map_length. intros j Hj. rewrite ones_nth by auto. lia. }
    rewrite vstart_length in E. destruct E as (E2 & E3 & E4 & E5 & E6 & E7 & E8).
    assert (Hdv : zprod dv = nn) by (rewrite E7, Hf, ones_prod; lia).
    assert (Hj : forall j, (j < length ls)%nat -> g <> Some j -> nth j sz 0 * nth j dv 0 = nth j ls 0).
    { intros j Hj Hgj. rewrite E6, ones_nth, vstart_nth by auto. destruct (is_dir g j) eqn:I; [|lia].
      apply is_dir_spec in I. contradiction. }
    repeat (split; [assumption|]). intros m Hm. assert (Hml := Hg m Hm).
    assert (Em : nth m sz 0 * nth m dv 0 = nsize ls nn m).
    { rewrite E6, ones_nth, vstart_nth by auto. rewrite (proj2 (is_dir_spec g m) Hm). lia. }
    split; auto. destruct (nsize_ok ls nn m Hn) as (N1 & N2 & N3). rewrite nth_1_0 in N1 by auto.
    split; [split; auto|].
    - assert (Hmd : (m < length dv)%nat) by lia. assert (Pd := pos_nth dv m E5 Hmd).
      set (P := zprod (update m (fun _ => 1) dv)).
      assert (EP : nth m dv 0 * P = nn).
      { assert (X := update_prod m (fun _ => 1) dv Hmd). fold P in X. rewrite Hdv in X. nia. }
      assert (DP : (P | cosize ls m)).
      { unfold cosize. rewrite nth_1_0 by auto. rewrite cosize_update by (auto; assert (X := pos_nth ls m Hls Hml); lia).
        apply prod_divides; [rewrite !update_length; lia|]. rewrite update_length. intros j Hj'. rewrite !update_nth by lia.
        destruct (Nat.eqb_spec j m) as [->|Hjm]; [exists 1; auto|]. exists (nth j sz 0). rewrite Hj by (try congruence; lia). auto. }
      set (D := nth m dv 0) in *. set (L := nth m ls 0) in *.
      assert (X : nsize ls nn m <= - ((- L) / D) * D).
      { assert (D1 := Z.div_mod (- L) D ltac:(lia)). assert (M := Z.mod_pos_bound (- L) D Pd).
        apply N3; [rewrite nth_1_0 by auto; fold L; nia|].
        destruct DP as (q & ->). replace (- (- L / D) * D * (q * P)) with ((- (- L / D) * q) * (D * P)) by ring.
        rewrite EP. apply Z.mod_mul. lia. }
      assert (D1 := Z.div_mod (- L) D ltac:(lia)). assert (M := Z.mod_pos_bound (- L) D Pd). nia.
    - destruct (E8 m Hm) as [[_ A]|A]; [left; rewrite A; apply ones_nth; auto|right; auto].
  Qed.

  Lemma no_empty : forall sz, Forall (fun x => 0 < x) sz -> existsb (fun s => s <? 1) sz = false.
  Proof.
    intros sz H. induction H; auto. cbn. rewrite IHForall. destruct (Z.ltb_spec x 1); [lia|auto].
  Qed.

  Lemma vattempt_ok : match vattempt ls nn nsub fs g with
    | Accepted sz dv sd m =>
        vslice g fs (vstart_sizes ls nn g) (map (fun _ => 1) ls) = Some (sz, dv) /\ sub_inv g sz dv sd nsub m /\ no_even_left g sz sd = false
    | StillRunning => False
    | _ => True
    end.
  Proof.
    unfold vattempt. destruct (vslice _ _ _ _) as [[sz dv]|] eqn:E; auto.
    destruct (sliced sz dv E) as (A1 & A2 & A3 & A4 & _). rewrite (no_empty sz A3).
    destruct (subdivide_ok g nsub sz dv ltac:(lia) (Z.to_nat nsub) (map (fun _ => 1) ls) 1 None ltac:(lia) ltac:(lia) (ones_inv g sz dv ls ltac:(auto)))
      as (sd & ns & m & -> & I).
    destruct (Z.eqb_spec ns nsub) as [->|]; cbn [negb orb]; auto. destruct (no_even_left g sz sd) eqn:F; auto.
  Qed.
End Attempt.

Lemma choose_lt : forall ls nn gh k, ls <> [] -> choose_gdir ls nn gh = Some k -> (k < length ls)%nat.
Proof.
  intros ls nn gh k Hl H. unfold choose_gdir in H. destruct (_ >? _); [|discriminate]. inversion H. apply min_ghost_lt.
  destruct ls; [congruence|cbn; lia].
Qed.

Lemma second_never_accepts : forall fuel ls nn nsub fs gh g sz dv sd m,
  vlayout_loop fuel ls nn nsub fs gh true <> VLayout g sz dv sd m.
Proof.
  induction fuel as [|k IH]; intros; cbn [vlayout_loop]; [discriminate|].
  destruct (vattempt _ _ _ _ _); try discriminate. apply IH.
Qed.

Lemma vaccepted : forall fuel ls nodes nsub g sz dv sd m, vsetup_layout fuel ls nodes nsub = VLayout g sz dv sd m ->
  exists fs, factorize (nodes * nsub) = Some fs /\ g = choose_gdir ls (nodes * nsub) (ghosts ls (nodes * nsub)) /\
    vattempt ls (nodes * nsub) nsub (rev fs) g = Accepted sz dv sd (Some m).
Proof.
  intros fuel ls nodes nsub g sz dv sd m H. unfold vsetup_layout in H. destruct (existsb _ _); [discriminate|].
  destruct (factorize _) as [fs|]; [|discriminate]. exists fs. split; auto.
  destruct fuel as [|k]; cbn [vlayout_loop] in H; [discriminate|].
  destruct (vattempt _ _ _ _ _) as [sz' dv' sd' m'| | |] eqn:E; try discriminate.
  - destruct m' as [m'|]; [|discriminate]. inversion H; subst. auto.
  - destruct (choose_gdir _ _ _); [|discriminate]. exfalso. eapply second_never_accepts; eauto.
Qed.

Lemma cquot_length : forall a b, length a = length b -> length (cquot a b) = length a.
Proof. induction a as [|x a IH]; intros [|y b] H; cbn in *; try discriminate; auto. Qed.
Lemma cquot_nth : forall a b j, length a = length b -> nth j (cquot a b) 0 = nth j a 0 / nth j b 0.
Proof.
  induction a as [|x a IH]; intros [|y b] j H; cbn in *; try discriminate; [destruct j; reflexivity|].
  destruct j; auto.
Qed.
Lemma cquot_prod : forall a b, length a = length b -> (forall j, (j < length a)%nat -> nth j a 0 = nth j b 0 * (nth j a 0 / nth j b 0)) ->
  zprod a = zprod b * zprod (cquot a b).
Proof.
  induction a as [|x a IH]; intros [|y b] Hl H; cbn [cquot]; try discriminate; [reflexivity|].
  rewrite !zprod_cons. assert (H0 := H 0%nat ltac:(cbn; lia)). cbn [nth] in H0.
  rewrite (IH b ltac:(cbn in Hl; lia) (fun j Hj => H (S j) ltac:(cbn; lia))). rewrite H0 at 1. ring.
Qed.

Theorem vlayout_ok : forall fuel ls nodes nsub g sz dv sd m nlb,
  (2 <= length ls)%nat -> Forall (fun x => 0 < x) ls -> 0 < nodes -> 2 <= nsub ->
  vsetup_layout fuel ls nodes nsub = VLayout g sz dv sd m ->
  exists mp inv, create_remap nlb (cquot dv sd) = Some (mp, inv) /\
    let v := installed ls dv sd m mp inv in
    valid_vlattice v /\ number_of_nodes (vl_lat v) = nodes /\ number_of_subnodes v = nsub /\
    forall r j, is_rank (vl_lat v) r -> (j < length ls)%nat ->
      (g <> Some j -> nth j (n_siz (nodeinfo (vl_lat v) r)) 0 = nth j sd 0 * nth j sz 0) /\
      (g = Some j -> nth j sd 0 = 1 /\ nth j sz 0 - 1 <= nth j (n_siz (nodeinfo (vl_lat v) r)) 0 <= nth j sz 0).
Proof.
  intros fuel ls nodes nsub g sz dv sd m nlb Hl2 Hls Hnn Hns H.
  destruct (vaccepted _ _ _ _ _ _ _ _ _ H) as (fs & Ef & Eg & Ea). set (nn := nodes * nsub) in *.
  assert (Hn : 0 < nn) by (unfold nn; nia).
  destruct (factor_rev nn fs Hn Ef) as [P1 P2].
  assert (Hg : forall k, g = Some k -> (k < length ls)%nat).
  { intros k Hk. apply (choose_lt ls nn (ghosts ls nn)); [destruct ls; [cbn in Hl2; lia|discriminate]|congruence]. }
  assert (Q := vattempt_ok ls nn nsub (rev fs) g Hls Hn P1 P2 Hg ltac:(lia)). rewrite Ea in Q. destruct Q as (Es & I & Hev).
  destruct (sliced ls nn (rev fs) g Hls Hn P1 P2 Hg sz dv Es) as (A1 & A2 & A3 & A4 & A5 & A6 & A7).
  destruct I as (I1 & I2 & I3 & I4 & I5 & I6). rewrite A1 in *.
  assert (Hq : forall j, (j < length ls)%nat -> nth j dv 0 = nth j sd 0 * (nth j dv 0 / nth j sd 0)).
  { intros j Hj. destruct (I4 j Hj) as (J1 & J2 & _). assert (X := Z.div_mod (nth j dv 0) (nth j sd 0) ltac:(lia)). lia. }
  assert (Hdp : forall j, (j < length ls)%nat -> 0 < nth j dv 0 / nth j sd 0).
  { intros j Hj. assert (X := pos_nth dv j A4 ltac:(lia)). assert (Y := Hq j Hj). destruct (I4 j Hj) as (J1 & _). nia. }
  assert (Hlq : length dv = length sd) by lia.
  assert (Hpos : Forall (fun x => 0 < x) (cquot dv sd)).
  { apply nth_pos_Forall. rewrite cquot_length by auto. intros j Hj. rewrite cquot_nth by auto. apply Hdp. lia. }
  assert (Hsd1 : forall k, g = Some k -> nth k sd 0 = 1).
  { intros k Hk. destruct (I4 k (Hg k Hk)) as (J1 & _ & J3). assert (~ 1 < nth k sd 0) by (intros C; apply J3 in C; tauto). lia. }
  destruct (create_remap_ok nlb (cquot dv sd) Hpos) as (mp & inv & E & Ha & Hb). exists mp, inv. split; auto. intros v.
  assert (Hv : valid_lattice (vl_lat v)).
  { unfold v, installed. cbn [vl_lat]. repeat split; cbn [l_size n_divisions]; auto.
    rewrite cquot_length by auto. lia. all: try (apply Ha; auto); apply Hb; auto. }
  assert (Hsubn : number_of_subnodes v = nsub) by exact I2.
  assert (Hnod : number_of_nodes (vl_lat v) = nodes).
  { unfold number_of_nodes, v, installed. cbn [vl_lat n_divisions].
    assert (X := cquot_prod dv sd Hlq ltac:(intros j Hj; apply Hq; lia)). rewrite A5, I2 in X. unfold nn in X. nia. }
  assert (Hext : forall r j, is_rank (vl_lat v) r -> (j < length ls)%nat ->
      (g <> Some j -> nth j (n_siz (nodeinfo (vl_lat v) r)) 0 = nth j sd 0 * nth j sz 0) /\
      (g = Some j -> nth j sd 0 = 1 /\ nth j sz 0 - 1 <= nth j (n_siz (nodeinfo (vl_lat v) r)) 0 <= nth j sz 0 /\
         0 < nth j (n_siz (nodeinfo (vl_lat v) r)) 0)).
  { intros r j Hr Hj. assert (Hgr := valid_grid _ Hv). assert (Hv' := Hv). destruct Hv' as (_ & _ & _ & _ & Hi). destruct (Hi r Hr) as [Hi1 _].
    rewrite nodeinfo_siz. destruct (node_size_nth _ _ (inverse_remap (vl_lat v) r) Hgr Hi1 j Hj) as (k & Hk & ->).
    unfold v, installed. cbn [vl_lat l_size n_divisions]. rewrite cquot_nth by auto.
    assert (Dq := Hdp j Hj). assert (Qj := Hq j Hj). split; intros Gj.
    - assert (X : nth j ls 0 = nth j dv 0 / nth j sd 0 * (nth j sd 0 * nth j sz 0)).
      { rewrite <- (A6 j Hj Gj). rewrite Qj at 1. ring. }
      rewrite X. apply cdiv_diff_even. auto.
    - destruct (A7 j Gj) as (B1 & B2 & B3). rewrite (Hsd1 j Gj) in *. rewrite Z.div_1_r in *. split; auto.
      assert (S0 := pos_nth sz j A3 ltac:(lia)).
      assert (X : nth j sz 0 - 1 <= cdiv (nth j ls 0) (nth j dv 0) (k + 1) - cdiv (nth j ls 0) (nth j dv 0) k <= nth j sz 0).
      { apply cdiv_diff; auto. nia. }
      split; auto. destruct B3 as [B3|B3]; [|lia].
      assert (nth j ls 0 = 1 * nth j sz 0) as -> by nia. rewrite B3, cdiv_diff_even by lia. auto. }
  assert (Hm1 : 1 < nth m sd 0).
  { destruct (I4 m I5) as (J1 & _). assert (nth m sd 0 <> 1) by (intros C; rewrite C in I6; discriminate). lia. }
  assert (Hmg : g <> Some m /\ nth m sz 0 mod 2 = 0) by (apply (I4 m I5); auto).
  split; [|split; [exact Hnod|split; [exact Hsubn|]]].
  2:{ intros r j Hr Hj. destruct (Hext r j Hr Hj) as [X1 X2]. split; auto. intros Gj. destruct (X2 Gj) as (Y1 & Y2 & _). auto. }
  unfold valid_vlattice. change (length (l_size (vl_lat v))) with (length ls). change (vl_div v) with sd. change (vl_merged v) with m.
  split; auto. split; auto. split; [apply nth_pos_Forall; rewrite I1; intros j Hj; apply I4; auto|]. split; auto. split; auto.
  split; [|split].
  - intros j Hj. unfold v, installed. cbn [vl_lat l_size n_divisions]. rewrite cquot_nth by auto.
    assert (S0 := pos_nth sz j A3 ltac:(lia)). assert (Qj := Hq j Hj). assert (Dq := Hdp j Hj). destruct (I4 j Hj) as (J1 & _).
    destruct g as [k|].
    + destruct (Nat.eq_dec k j) as [->|Hk].
      * destruct (A7 j eq_refl) as (B1 & B2 & B3). rewrite (Hsd1 j eq_refl) in *. rewrite Z.div_1_r in *.
        assert (X := pos_nth ls j Hls Hj). destruct B3 as [B3|B3]; nia.
      * rewrite <- (A6 j Hj ltac:(congruence)). set (D := nth j dv 0 / nth j sd 0) in *. rewrite Qj. nia.
    + rewrite <- (A6 j Hj ltac:(congruence)). set (D := nth j dv 0 / nth j sd 0) in *. rewrite Qj. nia.
  - intros r j Hr Hj. destruct (Hext r j Hr Hj) as [X1 X2]. destruct (I4 j Hj) as (J1 & _ & J3).
    destruct (is_dir g j) eqn:D.
    + apply is_dir_spec in D. destruct (X2 D) as (Y1 & Y2 & Y3). exists (nth j (n_siz (nodeinfo (vl_lat v) r)) 0).
      rewrite Y1. split; auto. split; [lia|lia].
    + assert (Gj : g <> Some j) by (intros C; apply is_dir_spec in C; congruence).
      exists (nth j sz 0). split; [apply pos_nth; auto; lia|]. split; auto. intros C. apply J3. auto.
  - intros r Hr.
    assert (Q : forall j, (j < length ls)%nat -> g <> Some j -> nth j sz 0 mod 2 = 0 ->
       (nth j (n_siz (nodeinfo (vl_lat v) r)) 0 / nth j sd 0) mod 2 = 0).
    { intros j Hj Gj Ej. destruct (Hext r j Hr Hj) as [X1 _]. rewrite (X1 Gj). destruct (I4 j Hj) as (J1 & _).
      rewrite Z.mul_comm, Z.div_mul by lia. auto. }
    exists m. unfold no_even_left in Hev. apply andb_false_iff in Hev. destruct Hev as [Hev|Hev].
    + set (o := if Nat.eq_dec m 0 then 1%nat else 0%nat).
      assert (Ho : o <> m /\ (o < length ls)%nat) by (unfold o; destruct (Nat.eq_dec m 0); split; lia).
      exists o. destruct Ho as [Ho1 Ho2]. split; [auto|]. split; auto. split; auto. split; [apply Q; tauto|].
      destruct (I4 o Ho2) as (J1 & _ & J3).
      assert (nth o sd 0 <> 1). { intros C. assert (X : existsb (fun d => nth d sd 0 =? 1) (seq 0 (length sz)) = true); [|congruence].
        apply existsb_exists. exists o. split; [apply in_seq; lia|]. rewrite C. auto. }
      destruct (J3 ltac:(lia)) as [J4 J5]. apply Q; auto.
    + apply negb_false_iff in Hev. apply existsb_exists in Hev. destruct Hev as (o & Ho & Et).
      apply in_seq in Ho. apply andb_true_iff in Et. destruct Et as [Et E3]. apply andb_true_iff in Et. destruct Et as [E1 E2].
      apply Z.eqb_eq in E1, E3. exists o. split; [intros ->; lia|]. split; auto. split; [lia|]. split; [apply Q; tauto|].
      apply Q; [lia| |auto]. intros C. apply is_dir_spec in C. rewrite C in E2. discriminate.
Qed.
