(** Proofs about site selections: all ranks. *)
From Verif Require Import Common LayoutModel LayoutSpec LayoutProofs1 LayoutProofs2 ReduceProofs1 IoModel IoSpec IoProofs1.
From Verif Require Import SelectModel SelectSpec SelectProofs1.

Section Ranks.
  Variable V : Type.
  Variable dv : V.
  Variable hv : bool.
  Variable lat : lattice.
  Hypothesis Hv : valid_lattice lat.
  Hypothesis Hbig : zprod (l_size lat) < 2 ^ 64.
  Variable p : parity.
  Variable calls : list Z -> list V.

  Definition visit (r : Z) : list (list Z) := map (coordinates (nodeinfo lat r)) (loop_indices (nodeinfo lat r) p).

  Lemma volume_nonneg : forall r, is_rank lat r ->
    0 <= n_even (nodeinfo lat r) /\ 0 <= n_odd (nodeinfo lat r) /\ volume (nodeinfo lat r) = n_even (nodeinfo lat r) + n_odd (nodeinfo lat r).
  Proof.
    intros r Hr. destruct (rank_box _ _ Hv Hr) as (mn & sz & E & Hl & Hs & _). rewrite E.
    assert (Hn := box_counts_nonneg mn sz Hl Hs). unfold volume. lia.
  Qed.

  Lemma visit_site : forall r c, is_rank lat r -> In c (visit r) -> is_site (l_size lat) c.
  Proof. intros r c Hr Hc. apply (loop_visits lat r p Hv Hr) in Hc. apply (holds_is_site lat r); tauto. Qed.

  Lemma visit_length : forall r, is_rank lat r -> (length (visit r) <= Z.to_nat (volume (nodeinfo lat r)))%nat.
  Proof.
    intros r Hr. destruct (volume_nonneg r Hr) as (H1 & H2 & H3). unfold visit, loop_indices. rewrite map_length, zrange_length.
    unfold loop_begin, loop_end. destruct p; lia.
  Qed.

  Lemma volume_bound : forall r, is_rank lat r -> 0 <= volume (nodeinfo lat r) < 2 ^ 64.
  Proof.
    intros r Hr. split; [destruct (volume_nonneg r Hr); lia|].
    destruct (loop_visits lat r ALL Hv Hr) as [Hnd Hin].
    set (vs := map (coordinates (nodeinfo lat r)) (loop_indices (nodeinfo lat r) ALL)) in *.
    assert (Hlen : length vs = Z.to_nat (volume (nodeinfo lat r))).
    { unfold vs, loop_indices. rewrite map_length, zrange_length. unfold loop_begin, loop_end. lia. }
    assert (Hs : forall c, In c vs -> is_site (l_size lat) c).
    { intros c Hc. apply Hin in Hc. apply (holds_is_site lat r); tauto. }
    assert (Hinc : (length (map (SiteIndex (l_size lat)) vs) <= length (zrange 0 (Z.to_nat (zprod (l_size lat)))))%nat).
    { apply NoDup_incl_length.
      - apply NoDup_map_inj; auto. intros x y Hx Hy E. apply (index_inj (l_size lat)); auto.
      - intros i Hi. apply in_map_iff in Hi. destruct Hi as (c & <- & Hc). apply zrange_In.
        assert (A := index_range _ _ (Hs c Hc)). lia. }
    rewrite map_length, zrange_length, Hlen in Hinc. assert (0 < zprod (l_size lat)).
    { apply zprod_pos. apply Hv. } lia.
  Qed.

  Lemma rank_loop_ok : forall nmax r s, is_rank lat r -> 0 <= nmax ->
    (hv = false \/ (forall c, (length (calls c) <= 1)%nat) -> exists s', rank_loop dv hv lat p calls nmax r s = Some s') /\
    forall s', rank_loop dv hv lat p calls nmax r s = Some s' ->
      rank_result V dv hv (l_size lat) calls nmax (chosen V calls (visit r)) s'.
  Proof.
    intros nmax r s Hr Hn. unfold rank_loop. fold (visit r).
    assert (Hvol := volume_bound r Hr). assert (Hlen := visit_length r Hr).
    set (vol := Z.to_nat (volume (nodeinfo lat r))) in *.
    replace (volume (nodeinfo lat r)) with (Z.of_nat vol) by lia.
    assert (H0 := setup_ok V dv hv (l_size lat) calls vol s).
    destruct (all_sites V dv hv (l_size lat) calls vol (visit r) [] _ H0) as [A B].
    - cbn. lia.
    - cbn [app]. apply NoDup_map_inj; [|apply (loop_visits lat r p Hv Hr)].
      intros x y Hx Hy E. apply (index_inj (l_size lat)); auto; apply (visit_site r); auto.
    - intros c Hc. apply (visit_site r) in Hc; auto. apply index_range in Hc. unfold SIZE_MAX. lia.
    - cbn [app] in B. split.
      + intros Hcond. destruct A as (s1 & ->); eauto. destruct Hcond; auto.
      + intros s' E. destruct (loop_calls hv (l_size lat) calls (visit r) (setup dv hv (Z.of_nat vol) s)) as [s1|] eqn:E1; [|discriminate].
        injection E as <-. apply (endloop_ok V dv hv (l_size lat) calls vol nmax (visit r)); auto. lia.
  Qed.

  Definition per_rank (n : nat) : list (list (list Z)) := map (fun r => chosen V calls (visit r)) (zrange 0 n).

  Lemma loops_ok : forall nmax, 0 <= nmax -> forall ss a, 0 <= a -> a + Z.of_nat (length ss) <= number_of_nodes lat ->
    (hv = false \/ (forall c, (length (calls c) <= 1)%nat) ->
       exists rs, all_some (map (fun q => rank_loop dv hv lat p calls nmax (fst q) (snd q)) (combine (zrange a (length ss)) ss)) = Some rs) /\
    forall rs, all_some (map (fun q => rank_loop dv hv lat p calls nmax (fst q) (snd q)) (combine (zrange a (length ss)) ss)) = Some rs ->
      Forall2 (rank_result V dv hv (l_size lat) calls nmax) (map (fun r => chosen V calls (visit r)) (zrange a (length ss))) rs.
  Proof.
    intros nmax Hn. induction ss as [|s ss IH]; intros a Ha Hl; cbn [length zrange combine map all_some fst snd].
    - split; [eauto|]. intros rs E. injection E as <-. constructor.
    - cbn [length] in Hl. assert (Hr : is_rank lat a) by (unfold is_rank; lia).
      destruct (rank_loop_ok nmax a s Hr Hn) as [R1 R2]. destruct (IH (a + 1)) as [I1 I2]; try lia. split.
      + intros Hc. destruct (R1 Hc) as (s1 & ->). destruct (I1 Hc) as (rs & ->). eauto.
      + intros rs E. destruct (rank_loop dv hv lat p calls nmax a s) as [s1|]; [|discriminate].
        destruct (all_some _) as [rs1|]; [|discriminate]. injection E as <-. constructor; auto.
  Qed.

  Definition all_chosen : list (list Z) := concat (per_rank (Z.to_nat (number_of_nodes lat))).

  Lemma chosen_bound : forall n, (n <= Z.to_nat (number_of_nodes lat))%nat -> Forall (fun m => Z.of_nat (length m) < 2 ^ 64) (per_rank n).
  Proof.
    intros n Hn. apply Forall_forall. intros l Hl. apply in_map_iff in Hl. destruct Hl as (r & <- & Hr).
    apply zrange_In in Hr. assert (Hk : is_rank lat r) by (unfold is_rank; lia).
    assert (A := chosen_length V calls (visit r)). assert (B := visit_length r Hk). assert (C := volume_bound r Hk). lia.
  Qed.

  Lemma nodes_pos : 0 < number_of_nodes lat.
  Proof. unfold number_of_nodes. apply zprod_pos. apply Hv. Qed.

  (** The joined result. *)
  Definition joined_result (x : selector V) : Prop :=
    x_joined x = true /\ exists s0 others, x_ranks x = s0 :: others /\
      rank_result V dv hv (l_size lat) calls (x_max x) all_chosen s0 /\
      Forall (fun s => s_sites s = []) others.

  Lemma join_ok : forall x, x_joined x = false -> 0 <= x_max x < 2 ^ 64 ->
    Forall2 (rank_result V dv hv (l_size lat) calls (x_max x)) (per_rank (Z.to_nat (number_of_nodes lat))) (x_ranks x) ->
    exists x', join dv hv x = Some x' /\ joined_result x' /\ x_max x' = x_max x.
  Proof.
    intros x Hj Hm Hr. unfold join. rewrite Hj. assert (Hp := nodes_pos).
    assert (Hb := chosen_bound (Z.to_nat (number_of_nodes lat)) (le_n _)).
    unfold joined_result, all_chosen. destruct (per_rank (Z.to_nat (number_of_nodes lat))) as [|m ms] eqn:E.
    { apply (f_equal (@length _)) in E. unfold per_rank in E. rewrite map_length, zrange_length in E. cbn in E. lia. }
    inversion Hr; subst. inversion Hb; subst.
    destruct (collect_ok V dv hv (l_size lat) calls (x_max x) ms l' m y Hm) as (s' & E1 & R); auto.
    rewrite E1. eexists. split; [reflexivity|]. cbn [x_joined x_ranks x_max concat]. split; [|auto]. split; auto.
    eexists. eexists. split; [reflexivity|]. split; [auto|].
    apply Forall_forall. intros s Hs. apply in_map_iff in Hs. destruct Hs as (t & <- & _). auto.
  Qed.

  Lemma select_ok : forall x, Z.of_nat (length (x_ranks x)) = number_of_nodes lat -> 0 <= x_max x < 2 ^ 64 ->
    (hv = false \/ (forall c, (length (calls c) <= 1)%nat) -> exists x1, select_loop dv hv lat p calls x = Some x1) /\
    forall x1, select_loop dv hv lat p calls x = Some x1 ->
      x_max x1 = x_max x /\
      (x_auto x = true -> joined_result x1) /\
      (exists x2, join dv hv x1 = Some x2 /\ x_max x2 = x_max x /\ joined_result x2).
  Proof.
    intros x Hl Hm. unfold select_loop.
    destruct (loops_ok (x_max x) (proj1 Hm) (x_ranks x) 0) as [L1 L2]; try lia.
    assert (Hjoin : forall rs, all_some (map (fun q => rank_loop dv hv lat p calls (x_max x) (fst q) (snd q))
        (combine (zrange 0 (length (x_ranks x))) (x_ranks x))) = Some rs ->
      exists x', join dv hv (mkSelector (x_max x) (x_auto x) false rs) = Some x' /\ joined_result x' /\ x_max x' = x_max x).
    { intros rs E. apply (join_ok (mkSelector (x_max x) (x_auto x) false rs)); auto. cbn [x_ranks x_max].
      unfold per_rank. rewrite <- Hl, Nat2Z.id. apply L2; auto. }
    split.
    - intros Hc. destruct (L1 Hc) as (rs & E). rewrite E. destruct (Hjoin _ E) as (x' & E' & _). cbv zeta.
      destruct (x_auto x); eauto.
    - intros x1 E. destruct (all_some _) as [rs|]; [|discriminate]. destruct (Hjoin _ eq_refl) as (x' & E' & R & Em). cbv zeta in E.
      destruct (x_auto x) eqn:Ea.
      + assert (x1 = x') by congruence. subst x'. split; [auto|]. split; [auto|]. exists x1.
        unfold join. destruct R as [Rj R]. rewrite Rj. split; [auto|]. split; [auto|]. split; auto.
      + injection E as <-. split; [auto|]. split; [discriminate|]. exists x'. auto.
  Qed.

  Lemma all_chosen_order : in_rank_order lat p (selected calls) all_chosen.
  Proof.
    exists (per_rank (Z.to_nat (number_of_nodes lat))). split; [reflexivity|]. assert (Hp := nodes_pos). split.
    - unfold per_rank. rewrite map_length, zrange_length. lia.
    - intros r Hr. assert (Hr' := Hr). unfold is_rank in Hr'.
      assert (E : nth (Z.to_nat r) (per_rank (Z.to_nat (number_of_nodes lat))) [] = chosen V calls (visit r)).
      { unfold per_rank. rewrite (nth_indep _ [] (chosen V calls (visit 0))).
        - rewrite (map_nth (fun r => chosen V calls (visit r))). rewrite zrange_nth by lia. do 2 f_equal. lia.
        - rewrite map_length, zrange_length. lia. }
      rewrite E. destruct (loop_visits lat r p Hv Hr) as [Hnd Hin]. fold (visit r) in Hnd, Hin. split.
      + apply NoDup_filter. auto.
      + intros c. unfold chosen. rewrite filter_In, Hin, called_iff. tauto.
  Qed.

  Lemma all_chosen_sites : forall c, In c all_chosen -> is_site (l_size lat) c.
  Proof.
    intros c Hc. unfold all_chosen in Hc. apply in_concat in Hc. destruct Hc as (l & Hl & Hc).
    apply in_map_iff in Hl. destruct Hl as (r & <- & Hr). apply zrange_In in Hr.
    apply filter_In in Hc. apply (visit_site r); [unfold is_rank; assert (A := nodes_pos); lia|tauto].
  Qed.
End Ranks.
