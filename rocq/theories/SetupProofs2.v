From Coq Require Import Znumtheory.
From Verif Require Import Common LayoutModel LayoutSpec LayoutProofs1 LayoutProofs2 LayoutProofs3 SetupModel SetupProofs1.

Lemma second_never_layout : forall fuel ls nn fs gh m mdir sz dv,
  layout_loop fuel ls nn fs gh m true <> Layout mdir sz dv.
Proof.
  induction fuel as [|k IH]; intros; cbn [layout_loop]; [discriminate|].
  destruct (slice _ _ _) as [[sz' dv']|]; [|discriminate].
  rewrite andb_false_r. destruct (existsb _ _); [discriminate|apply IH].
Qed.

Lemma layout_first : forall fuel ls nn m sz dv, ls <> [] -> setup_layout fuel ls nn = Layout m sz dv ->
  exists fs, factorize nn = Some fs /\ (m < length ls)%nat /\
    slice (rev fs) (start_sizes ls nn m) (map (fun _ => 1) ls) = Some (sz, dv) /\ Forall (fun s => 2 <= s) sz.
Proof.
  intros fuel ls nn m sz dv Hl H. unfold setup_layout in H. destruct (factorize nn) as [fs|]; [|discriminate].
  exists fs. split; auto. destruct fuel as [|k]; cbn [layout_loop] in H; [discriminate|].
  destruct (slice _ _ _) as [[sz' dv']|] eqn:E; [|discriminate]. rewrite andb_true_r in H.
  destruct (existsb _ sz') eqn:F.
  - exfalso. eapply second_never_layout; eauto.
  - inversion H; subst. split; [apply min_ghost_lt; destruct ls; [congruence|cbn; lia]|]. split; auto.
    apply Forall_forall. intros s Hs. destruct (Z_lt_le_dec s 2); auto. exfalso.
    assert (X : existsb (fun s => s <? 2) sz = true); [|congruence]. apply existsb_exists. exists s. split; auto. apply Z.ltb_lt. auto.
Qed.

Lemma factor_rev : forall nn fs, 0 < nn -> factorize nn = Some fs -> zprod (rev fs) = nn /\ Forall prime (rev fs).
Proof.
  intros nn fs Hn H. destruct (factorize_ok nn fs Hn H) as [A B]. split; [|apply Forall_rev; auto].
  rewrite <- A. clear. induction fs as [|x l IH]; auto. cbn [rev]. rewrite zprod_app, IH, !zprod_cons. change (zprod []) with 1. ring.
Qed.

Lemma never_cannot_happen : forall fuel ls nn, ls <> [] -> Forall (fun x => 0 < x) ls -> 0 < nn ->
  setup_layout fuel ls nn <> CannotHappen.
Proof.
  intros fuel ls nn Hl Hls Hn. unfold setup_layout. destruct (factorize nn) as [fs|] eqn:Ef; [|discriminate].
  destruct (factor_rev nn fs Hn Ef) as [P1 P2].
  assert (H : forall fuel gh m b, (m < length ls)%nat -> layout_loop fuel ls nn (rev fs) gh m b <> CannotHappen).
  { induction fuel0 as [|k IH]; intros gh m b Hm; cbn [layout_loop]; [discriminate|].
    assert (Hm' := min_ghost_lt gh _ _ Hm).
    destruct (attempt_ok ls nn (rev fs) Hls Hn P1 P2 _ Hm') as (sz & dv & -> & _).
    destruct (existsb _ _ && negb b); [apply IH; auto|]. destruct (existsb _ _); [discriminate|]. destruct b; [apply IH; auto|discriminate]. }
  apply H. destruct ls; [congruence|cbn; lia].
Qed.

(** *** Box sizes *)
Lemma node_size_nth : forall ls nd id, grid ls nd -> 0 <= id < zprod nd -> forall j, (j < length ls)%nat ->
  exists k, 0 <= k < nth j nd 0 /\
    nth j (node_size ls nd id) 0 = cdiv (nth j ls 0) (nth j nd 0) (k + 1) - cdiv (nth j ls 0) (nth j nd 0) k.
Proof.
  intros ls nd id Hg. revert id. induction Hg; intros id Hid j Hj; [cbn in Hj; lia|].
  cbn [node_size]. rewrite zprod_cons in Hid. assert (Hm := Z.mod_pos_bound id n ltac:(lia)).
  destruct j as [|j]; cbn [nth].
  - exists (id mod n). split; auto. rewrite !divisor_spec by lia. auto.
  - apply IHHg; [|cbn in Hj; lia]. split; [apply Z.div_pos; lia|apply Z.div_lt_upper_bound; lia].
Qed.

Lemma cdiv_diff : forall L n k s, 0 < n -> n * (s - 1) < L <= n * s -> s - 1 <= cdiv L n (k + 1) - cdiv L n k <= s.
Proof.
  intros L n k s Hn H. set (a := cdiv L n k). set (b := cdiv L n (k + 1)).
  assert (A1 := proj1 (cdiv_ge L n k a Hn) ltac:(lia)). assert (A2 := proj1 (cdiv_lt L n k (a - 1) Hn) ltac:(lia)).
  assert (B1 := proj1 (cdiv_ge L n (k + 1) b Hn) ltac:(lia)). assert (B2 := proj1 (cdiv_lt L n (k + 1) (b - 1) Hn) ltac:(lia)).
  split.
  - assert (~ b <= a + s - 2); [|lia]. intros C. assert (b * n <= (a + s - 2) * n) by nia. nia.
  - assert (~ a + s + 1 <= b); [|lia]. intros C. assert ((a + s + 1) * n <= b * n) by nia. nia.
Qed.
Lemma cdiv_diff_even : forall n k s, 0 < n -> cdiv (n * s) n (k + 1) - cdiv (n * s) n k = s.
Proof.
  intros n k s Hn. unfold cdiv.
  replace (- ((k + 1) * (n * s))) with ((- (k + 1) * s) * n) by ring. replace (- (k * (n * s))) with ((- k * s) * n) by ring.
  rewrite !Z.div_mul by lia. ring.
Qed.

Lemma nsize_even : forall ls nn d, Forall (fun x => 0 < x) ls -> 0 < nn -> (d < length ls)%nat -> zprod ls mod nn = 0 ->
  nsize ls nn d = nth d ls 0.
Proof.
  intros ls nn d Hls Hn Hd H. destruct (nsize_ok ls nn d Hn) as (N1 & _ & N3). assert (P := pos_nth ls d Hls Hd).
  rewrite nth_1_0 in * by auto. assert (nsize ls nn d <= nth d ls 0); [|lia]. apply N3; [lia|].
  unfold cosize. rewrite nth_1_0 by auto. rewrite <- zprod_div_nth by (auto; lia). auto.
Qed.

Theorem layout_ok : forall fuel ls nn m sz dv nlb, ls <> [] -> Forall (fun x => 0 < x) ls -> 0 < nn ->
  setup_layout fuel ls nn = Layout m sz dv ->
  length dv = length ls /\ zprod dv = nn /\
  exists mp inv, create_remap nlb dv = Some (mp, inv) /\
    let lat := mkLattice ls dv mp inv in
    valid_lattice lat /\ number_of_nodes lat = nn /\
    forall r, is_rank lat r ->
      forall j, (j < length ls)%nat ->
        (j <> m -> nth j (n_siz (nodeinfo lat r)) 0 = nth j sz 0 /\ 2 <= nth j sz 0) /\
        (j = m -> 1 <= nth j (n_siz (nodeinfo lat r)) 0 /\ nth j sz 0 - 1 <= nth j (n_siz (nodeinfo lat r)) 0 <= nth j sz 0) /\
        (zprod ls mod nn = 0 -> 2 <= nth j (n_siz (nodeinfo lat r)) 0).
Proof.
  intros fuel ls nn m sz dv nlb Hl Hls Hn H.
  destruct (layout_first fuel ls nn m sz dv Hl H) as (fs & Ef & Hm & Es & H2).
  destruct (factor_rev nn fs Hn Ef) as [P1 P2].
  destruct (attempt_ok ls nn (rev fs) Hls Hn P1 P2 m Hm) as (sz' & dv' & E & A1 & A2 & A3 & A4 & A5 & A6 & A7 & A8).
  rewrite Es in E. inversion E; subst sz' dv'. clear E.
  split; auto. split; auto.
  destruct (create_remap_ok nlb dv A4) as (mp & inv & E & Ha & Hb). exists mp, inv. split; auto. intros lat.
  assert (Hv : valid_lattice lat). { repeat split; auto; apply Ha || apply Hb; auto. }
  split; auto. split; [exact A5|]. intros r Hr j Hj.
  assert (Hg := valid_grid _ Hv). destruct Hv as (_ & _ & _ & _ & Hi). destruct (Hi r Hr) as [Hi1 _].
  rewrite nodeinfo_siz. cbn [l_size n_divisions inverse_remap lat].
  destruct (node_size_nth ls dv (inv r) Hg Hi1 j Hj) as (k & Hk & ->).
  assert (S2 : 2 <= nth j sz 0). { rewrite Forall_forall in H2. apply H2, nth_In. lia. }
  assert (Dp : 0 < nth j dv 0) by lia. split; [|split].
  - intros Hjm. split; auto. rewrite <- (A6 j Hj Hjm). rewrite Z.mul_comm. apply cdiv_diff_even. auto.
  - intros ->. assert (X : nth m sz 0 - 1 <= cdiv (nth m ls 0) (nth m dv 0) (k + 1) - cdiv (nth m ls 0) (nth m dv 0) k <= nth m sz 0).
    { apply cdiv_diff; auto. nia. }
    split; [lia|auto].
  - intros Hd. assert (X : nth j ls 0 = nth j dv 0 * nth j sz 0).
    { destruct (Nat.eq_dec j m) as [->|Hjm]; [|rewrite <- (A6 j Hj Hjm); ring].
      rewrite <- (nsize_even ls nn m Hls Hn Hm Hd), <- A7. ring. }
    rewrite X, cdiv_diff_even by auto. auto.
Qed.

(** *** Termination *)
Lemma start_sizes_even : forall ls nn m, Forall (fun x => 0 < x) ls -> 0 < nn -> zprod ls mod nn = 0 ->
  start_sizes ls nn m = ls.
Proof.
  intros ls nn m Hls Hn H. apply list_eq_nth; [apply start_sizes_length|]. rewrite start_sizes_length. intros j Hj.
  rewrite start_sizes_nth by auto. rewrite nsize_even, nth_1_0 by auto. destruct (Nat.eqb j m); auto.
Qed.

Lemma terminates_even : forall ls nn fuel, Forall (fun x => 0 < x) ls -> 0 < nn -> zprod ls mod nn = 0 ->
  (2 <= fuel)%nat -> setup_layout fuel ls nn <> LoopsOn.
Proof.
  intros ls nn fuel Hls Hn H Hf. unfold setup_layout. destruct (factorize nn) as [fs|]; [|discriminate].
  destruct fuel as [|[|k]]; try lia. cbn [layout_loop]. rewrite !(start_sizes_even ls nn) by auto.
  destruct (slice _ _ _) as [[sz dv]|]; [|discriminate].
  destruct (existsb _ _) eqn:E; cbn [andb negb]; discriminate.
Qed.

(** The loop either is over after two turns or never. *)
Lemma repeat_forever : forall fuel ls nn fs gh m sz dv,
  min_ghost gh (length ls) m = m -> slice fs (start_sizes ls nn m) (map (fun _ => 1) ls) = Some (sz, dv) ->
  existsb (fun s => s <? 2) sz = false -> layout_loop fuel ls nn fs gh m true = LoopsOn.
Proof.
  induction fuel as [|k IH]; intros ls nn fs gh m sz dv Hm E F; cbn [layout_loop]; auto.
  rewrite Hm, E, F. cbn [andb]. eapply IH; eauto.
Qed.

Lemma min_ghost_min : forall gh n m j, (j < n)%nat -> gh (min_ghost gh n m) <= gh j.
Proof.
  intros gh n m j Hj. unfold min_ghost.
  assert (H : forall l m, gh (fold_left (fun m j => if gh m >? gh j then j else m) l m) <= gh m /\
     (forall j, In j l -> gh (fold_left (fun m j => if gh m >? gh j then j else m) l m) <= gh j)).
  { induction l as [|x l IH]; intros m0; cbn; [split; [lia|intros _ []]|].
    destruct (IH (if gh m0 >? gh x then x else m0)) as [B1 B2]. rewrite Z.gtb_ltb in *. destruct (Z.ltb_spec (gh x) (gh m0)).
    - split; [lia|]. intros j0 [<-|Hi]; [lia|apply B2; auto].
    - split; [lia|]. intros j0 [<-|Hi]; [lia|apply B2; auto]. }
  apply H. apply in_seq. lia.
Qed.
Lemma min_ghost_idem : forall gh n m, min_ghost gh n (min_ghost gh n m) = min_ghost gh n m.
Proof.
  intros gh n m. assert (H := fun j => min_ghost_min gh n m j). set (k := min_ghost gh n m) in *.
  unfold min_ghost. assert (X : forall l, (forall j, In j l -> (j < n)%nat) -> fold_left (fun m j => if gh m >? gh j then j else m) l k = k).
  { induction l as [|j l IH]; intros Hl; cbn; auto. rewrite Z.gtb_ltb.
    destruct (Z.ltb_spec (gh j) (gh k)) as [C|C]; [exfalso; specialize (H j (Hl j (or_introl eq_refl))); lia|].
    apply IH. intros. apply Hl. right; auto. }
  apply X. intros j Hj. apply in_seq in Hj. lia.
Qed.

Lemma two_turns_or_never : forall ls nn,
  (forall fuel, (2 <= fuel)%nat -> setup_layout fuel ls nn = setup_layout 2 ls nn /\ setup_layout fuel ls nn <> LoopsOn) \/
  (forall fuel, setup_layout fuel ls nn = LoopsOn).
Proof.
  intros ls nn. unfold setup_layout. destruct (factorize nn) as [fs|]; [|left; intros; split; [auto|discriminate]].
  set (gh := ghosts ls nn). set (m := min_ghost gh (length ls) 0).
  destruct (slice (rev fs) (start_sizes ls nn m) (map (fun _ => 1) ls)) as [[sz dv]|] eqn:E1.
  2:{ left. intros [|[|k]] Hk; try lia. cbn [layout_loop]. fold m. rewrite E1. split; [auto|discriminate]. }
  destruct (existsb (fun s => s <? 2) sz) eqn:F1.
  2:{ left. intros [|[|k]] Hk; try lia. cbn [layout_loop]. fold m. rewrite E1, F1. cbn [andb]. split; [auto|discriminate]. }
  set (gh2 := fun d => if Nat.eqb d m then 2 ^ 62 else gh d).
  set (m2 := min_ghost gh2 (length ls) m).
  destruct (slice (rev fs) (start_sizes ls nn m2) (map (fun _ => 1) ls)) as [[sz2 dv2]|] eqn:E2.
  2:{ left. intros [|[|k]] Hk; try lia. cbn [layout_loop]. fold m. rewrite E1, F1. cbn [andb negb].
      fold gh2. fold m2. rewrite E2. split; [auto|discriminate]. }
  destruct (existsb (fun s => s <? 2) sz2) eqn:F2.
  { left. intros [|[|k]] Hk; try lia. cbn [layout_loop]. fold m. rewrite E1, F1. cbn [andb negb].
    fold gh2. fold m2. rewrite E2, F2. cbn [andb]. split; [auto|discriminate]. }
  right. intros [|[|k]]; cbn [layout_loop]; auto.
  - fold m. rewrite E1, F1. auto.
  - fold m. rewrite E1, F1. cbn [andb negb]. fold gh2. fold m2. rewrite E2, F2. cbn [andb].
    apply (repeat_forever _ _ _ _ _ _ sz2 dv2); auto. apply min_ghost_idem.
Qed.
