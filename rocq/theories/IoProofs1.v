(** C15: writing and reading of whole fields. *)
From Verif Require Import Common LayoutModel LayoutSpec LayoutProofs1 LayoutProofs2.
From Verif Require Import ElementModel ElementSpec ElementProofs1 ElementProofs2 IoModel IoSpec.

Lemma inside_site : forall ls c, IoModel.inside ls c = true <-> is_site ls c.
Proof.
  induction ls as [|n ls IH]; intros c; destruct c as [|x c]; cbn [IoModel.inside]; unfold is_site; cbn [length].
  - split; auto. intros _. split; auto. intros j Hj. lia.
  - split; [discriminate|]. intros [H _]. discriminate.
  - split; [discriminate|]. intros [H _]. discriminate.
  - rewrite !andb_true_iff, IH. unfold is_site. split.
    + intros [[A B] [C D]]. split; [lia|]. intros [|j] Hj; cbn [nth]; [lia|]. apply D. lia.
    + intros [A B]. assert (B0 := B 0%nat ltac:(lia)). cbn [nth] in B0. split; [lia|]. split; [lia|].
      intros j Hj. apply (B (S j)). lia.
Qed.

Lemma sites_In : forall ls c, In c (sites_in_file_order ls) <-> is_site ls c.
Proof.
  intros ls c. rewrite <- inside_site. revert c. induction ls as [|n ls IH]; intros c; cbn [sites_in_file_order].
  - destruct c; cbn; intuition; try discriminate.
  - rewrite in_flat_map. destruct c as [|x c]; cbn [IoModel.inside].
    + split; [|discriminate]. intros (r & _ & H). apply in_map_iff in H. destruct H as (? & H & _). discriminate.
    + rewrite andb_true_iff, <- IH. split.
      * intros (r & Hr & H). apply in_map_iff in H. destruct H as (y & E & Hy). inversion E; subst.
        apply zrange_In in Hy. split; auto. lia.
      * intros [H1 H2]. exists c. split; auto. apply in_map_iff. exists x. split; auto. apply zrange_In. lia.
Qed.

Lemma sites_NoDup : forall ls, NoDup (sites_in_file_order ls).
Proof.
  induction ls as [|n ls IH]; cbn [sites_in_file_order]; [constructor; [simpl; tauto|constructor]|].
  induction IH as [|r rs Hr IH IHl]; cbn [flat_map]; [constructor|]. apply NoDup_app_intro; auto.
  - apply NoDup_map_inj; [|apply zrange_NoDup]. intros a b _ _ E. congruence.
  - intros c H1 H2. apply in_map_iff in H1. destruct H1 as (a & <- & _).
    apply in_flat_map in H2. destruct H2 as (r' & Hr' & H). apply in_map_iff in H.
    destruct H as (b & E & _). inversion E; subst. auto.
Qed.

Lemma zrange_blocks : forall n m, 0 < n ->
  zrange 0 (Z.to_nat n * m) = flat_map (fun q => map (fun x => n * q + x) (zrange 0 (Z.to_nat n))) (zrange 0 m).
Proof.
  intros n m Hn. induction m as [|m IH]; [rewrite Nat.mul_0_r; reflexivity|].
  replace (Z.to_nat n * S m)%nat with (Z.to_nat n * m + Z.to_nat n)%nat by lia.
  replace (S m) with (m + 1)%nat by lia. rewrite !zrange_app, flat_map_app, <- IH. f_equal.
  cbn [zrange flat_map]. rewrite app_nil_r. rewrite zrange_map_add.
  f_equal. nia.
Qed.

Lemma global_coordinates_all : forall ls, Forall (fun n => 0 < n) ls ->
  map (global_coordinates ls) (zrange 0 (Z.to_nat (zprod ls))) = sites_in_file_order ls.
Proof.
  induction ls as [|n ls IH]; intros H; [reflexivity|]. inversion H; subst.
  cbn [sites_in_file_order]. rewrite <- IH by auto. rewrite zprod_cons.
  assert (0 < zprod ls) by (apply zprod_pos; auto).
  replace (Z.to_nat (n * zprod ls)) with (Z.to_nat n * Z.to_nat (zprod ls))%nat by nia.
  rewrite zrange_blocks by auto.
  assert (Hq : forall q, In q (zrange 0 (Z.to_nat (zprod ls))) -> 0 <= q) by (intros q Hq; apply zrange_In in Hq; lia).
  clear IH. induction (zrange 0 (Z.to_nat (zprod ls))) as [|q qs IHq]; cbn [flat_map map]; auto.
  rewrite map_app, IHq by (intros; apply Hq; simpl; auto). f_equal. rewrite !map_map.
  apply map_ext_In. intros x Hx. apply zrange_In in Hx. cbn [global_coordinates].
  rewrite Z.add_comm, Z.mul_comm, Z.mod_add by lia. rewrite Z.div_add by lia.
  rewrite Z.mod_small by lia. rewrite (Z.div_small x n) by lia. f_equal.
Qed.

Lemma global_coordinates_site : forall ls i, Forall (fun n => 0 < n) ls -> 0 <= i < zprod ls ->
  is_site ls (global_coordinates ls i).
Proof.
  intros ls i Hp Hi. apply sites_In. rewrite <- global_coordinates_all by auto. apply in_map. apply zrange_In. lia.
Qed.

Lemma valid_sizes : forall lat, valid_lattice lat -> Forall (fun n => 0 < n) (l_size lat).
Proof. intros lat (_ & H & _). exact H. Qed.

Lemma rank_0 : forall lat, valid_lattice lat -> is_rank lat 0.
Proof.
  intros lat (_ & _ & H & _). unfold is_rank, number_of_nodes. split; [lia|]. apply zprod_pos. auto.
Qed.

Section Codec.
  Context {V B : Type}.
  Variables (ser : V -> list B) (deser : list B -> V) (sz : Z).
  Hypothesis Hc : codec ser deser sz.

  Lemma read_elements_ok : forall vs rest,
    read_elements deser sz (length vs) (flat_map ser vs ++ rest) = Some (vs, rest).
  Proof.
    destruct Hc as [Hs Hser]. induction vs as [|v vs IH]; intros rest; cbn [length read_elements flat_map]; [auto|].
    destruct (Hser v) as [E L]. rewrite <- app_assoc.
    replace (Z.of_nat (length (ser v ++ flat_map ser vs ++ rest)) <? sz) with false by (rewrite app_length; lia).
    replace (Z.to_nat sz) with (length (ser v)) by lia.
    rewrite skipn_app, skipn_all, Nat.sub_diag. cbn [skipn app]. rewrite IH.
    rewrite firstn_app, firstn_all, Nat.sub_diag. cbn [firstn]. rewrite app_nil_r, E. auto.
  Qed.

  Lemma read_elements_split : forall n bytes,
    match read_elements deser sz n bytes with
    | None => Z.of_nat (length bytes) < Z.of_nat n * sz
    | Some (vs, rest) => length vs = n /\ Z.of_nat (length bytes) = Z.of_nat n * sz + Z.of_nat (length rest)
    end.
  Proof.
    destruct Hc as [Hs _]. induction n as [|n IH]; intros bytes; cbn [read_elements]; [split; auto|].
    destruct (Z.ltb_spec (Z.of_nat (length bytes)) sz); [nia|].
    specialize (IH (skipn (Z.to_nat sz) bytes)). rewrite skipn_length in IH.
    destruct (read_elements deser sz n (skipn (Z.to_nat sz) bytes)) as [[vs rest]|].
    - cbn [length]. destruct IH as [-> IH]. split; auto. nia.
    - nia.
  Qed.
End Codec.

Section Whole.
  Context {V B : Type}.
  Variables (ser : V -> list B) (deser : list B -> V) (sz : Z).
  Variable lat : lattice.
  Hypothesis Hv : valid_lattice lat.
  Local Notation ls := (l_size lat).
  Local Notation vol := (zprod (l_size lat)).

  Lemma chunk_sites : forall i n, 0 <= i -> i + n <= vol -> Forall (is_site ls) (chunk_coords ls i n).
  Proof.
    intros i n Hi Hn. apply Forall_forall. intros c H. apply in_map_iff in H. destruct H as (j & <- & H).
    apply zrange_In in H. apply global_coordinates_site; [apply valid_sizes; auto|lia].
  Qed.

  Lemma scatter_all_ok : forall coords vs (st : rank_store V) F,
    represents lat st F -> Forall (is_site ls) coords -> length coords = length vs ->
    exists st', scatter_all lat coords vs st = Some st' /\ represents lat st' (put_list F (combine coords vs)).
  Proof.
    intros coords vs st F HF Hs Hl.
    destruct (scatter_ok lat Hv 0 coords vs st F HF (rank_0 lat Hv) Hs Hl) as (st' & A & H).
    unfold scatter_all.
    replace (forallb (IoModel.inside ls) coords) with true.
    2:{ symmetry. apply forallb_forall. intros c Hc. apply inside_site. rewrite Forall_forall in Hs. auto. }
    replace (forallb _ (zrange 0 (Z.to_nat (number_of_nodes lat)))) with true.
    2:{ symmetry. apply forallb_forall. intros r Hr. apply zrange_In in Hr.
        rewrite A by (unfold is_rank; lia). reflexivity. }
    cbn [andb]. eexists. split; [reflexivity|]. apply (represents_ext lat st'); auto.
    intros r Hr. rewrite A; auto.
  Qed.

  Lemma tail_split : forall i n k, 0 <= i -> 0 <= n -> i + n <= k ->
    zrange i (Z.to_nat (k - i)) = zrange i (Z.to_nat n) ++ zrange (i + n) (Z.to_nat (k - (i + n))).
  Proof.
    intros i n k Hi Hn Hk. replace (Z.to_nat (k - i)) with (Z.to_nat n + Z.to_nat (k - (i + n)))%nat by lia.
    rewrite zrange_app. do 2 f_equal. lia.
  Qed.

  Lemma write_loop_ok : forall spw (st : rank_store V) F, 1 <= spw -> represents lat st F ->
    forall fuel i, 0 <= i -> Z.max 0 (vol - i) < Z.of_nat fuel ->
    write_loop ser fuel lat spw st i = Done (flat_map ser (map F (map (global_coordinates ls) (zrange i (Z.to_nat (vol - i)))))).
  Proof.
    intros spw st F Hspw HF. induction fuel as [|fuel IH]; intros i Hi Hf; cbn [write_loop]; cbv zeta; [lia|].
    destruct (Z.ltb_spec i vol).
    - rewrite (gather_elements_ok V lat st F 0); auto using rank_0.
      2:{ apply chunk_sites; lia. }
      rewrite IH by lia. f_equal. rewrite (tail_split i (Z.min spw (vol - i)) vol) by lia.
      rewrite !map_app, flat_map_app. f_equal.
      destruct (Z.min_spec spw (vol - i)) as [[_ ->]|[Hm ->]]; auto.
      replace (Z.to_nat (vol - (i + spw))) with 0%nat by lia.
      replace (Z.to_nat (vol - (i + (vol - i)))) with 0%nat by lia. auto.
    - replace (Z.to_nat (vol - i)) with 0%nat by lia. auto.
  Qed.

  Lemma write_ok : forall spw (st : rank_store V) F fuel, 1 <= spw -> represents lat st F ->
    vol < Z.of_nat fuel -> field_write ser fuel lat spw st = Done (file_of ser ls F).
  Proof.
    intros spw st F fuel Hspw HF Hf. unfold field_write.
    assert (0 < vol) by (apply zprod_pos, valid_sizes; auto).
    rewrite (write_loop_ok spw st F) by (auto; lia). rewrite Z.sub_0_r.
    rewrite global_coordinates_all by (apply valid_sizes; auto). unfold file_of. rewrite !flat_map_concat_map, map_map. auto.
  Qed.

  Lemma write_never : forall (st : rank_store V) F fuel, represents lat st F ->
    field_write ser fuel lat 0 st = NoFuel.
  Proof.
    intros st F fuel HF. unfold field_write.
    assert (0 < vol) by (apply zprod_pos, valid_sizes; auto).
    induction fuel as [|fuel IH]; cbn [write_loop]; cbv zeta; auto.
    replace (0 <? vol) with true by lia. rewrite (gather_elements_ok V lat st F 0); auto using rank_0.
    - rewrite Z.add_0_r, IH. auto.
    - apply chunk_sites; lia.
  Qed.

  Hypothesis Hc : codec ser deser sz.

  Lemma chunk_length : forall l i n, length (chunk_coords l i n) = Z.to_nat n.
  Proof. intros. unfold chunk_coords. rewrite map_length, zrange_length. auto. Qed.

  Lemma combine_map_In : forall (coords : list (list Z)) (G : list Z -> V) c v,
    In (c, v) (combine coords (map G coords)) -> v = G c /\ In c coords.
  Proof.
    induction coords as [|d coords IH]; intros G c v H; cbn [map combine] in H; [destruct H|].
    destruct H as [E|H]; [inversion E; subst; simpl; auto|]. apply IH in H. simpl. tauto.
  Qed.

  Lemma put_list_map : forall coords (F G : list Z -> V) x,
    (In x coords -> put_list F (combine coords (map G coords)) x = G x) /\
    (~ In x coords -> put_list F (combine coords (map G coords)) x = F x).
  Proof.
    intros coords F G x.
    assert (E : map fst (combine coords (map G coords)) = coords) by (apply map_fst_pairs; rewrite map_length; auto).
    assert (P := fun H => put_list_consistent (combine coords (map G coords)) F G H x). rewrite E in P.
    apply P. intros c v H. apply combine_map_In in H. tauto.
  Qed.

  Lemma read_loop_ok : forall spr G rest, 1 <= spr ->
    forall fuel i (st : rank_store V) F, 0 <= i -> Z.max 0 (vol - i) < Z.of_nat fuel -> represents lat st F ->
    let coords := map (global_coordinates ls) (zrange i (Z.to_nat (vol - i))) in
    exists st' F', read_loop deser sz fuel lat spr i (flat_map ser (map G coords) ++ rest) st = Done (st', rest) /\
      represents lat st' F' /\ (forall c, In c coords -> F' c = G c) /\ (forall c, ~ In c coords -> F' c = F c).
  Proof.
    intros spr G rest Hspr. induction fuel as [|fuel IH]; intros i st F Hi Hf HF; [lia|].
    cbn [read_loop]; cbv zeta. destruct (Z.ltb_spec i vol).
    - set (n := Z.min spr (vol - i)). assert (Hn : 0 <= n <= vol - i) by lia.
      rewrite (tail_split i n vol) by lia. rewrite !map_app, flat_map_app, <- app_assoc.
      fold (chunk_coords ls i n).
      replace (Z.to_nat n) with (length (map G (chunk_coords ls i n))) by (rewrite map_length; apply chunk_length).
      rewrite (read_elements_ok ser deser sz Hc).
      destruct (scatter_all_ok (chunk_coords ls i n) (map G (chunk_coords ls i n)) st F) as (st1 & A1 & A2); auto.
      { apply chunk_sites; lia. }
      { rewrite map_length. auto. }
      rewrite A1.
      assert (Erest : zrange (i + n) (Z.to_nat (vol - (i + n))) = zrange (i + spr) (Z.to_nat (vol - (i + spr)))).
      { unfold n. destruct (Z.min_spec spr (vol - i)) as [[_ ->]|[Hm ->]]; auto.
        replace (Z.to_nat (vol - (i + spr))) with 0%nat by lia.
        replace (Z.to_nat (vol - (i + (vol - i)))) with 0%nat by lia. auto. }
      rewrite Erest.
      destruct (IH (i + spr) st1 _ ltac:(lia) ltac:(lia) A2) as (st' & F' & B1 & B2 & B3 & B4).
      exists st', F'. split; auto. split; auto.
      set (later := map (global_coordinates ls) (zrange (i + spr) (Z.to_nat (vol - (i + spr))))) in *.
      assert (P := put_list_map (chunk_coords ls i n) F G). split.
      + intros c Hcin. destruct (in_dec site_eq_dec c later) as [Hl|Hl]; auto. rewrite B4 by auto.
        apply in_app_iff in Hcin. apply P. tauto.
      + intros c Hcin. rewrite in_app_iff in Hcin. rewrite B4 by tauto. apply P. tauto.
    - replace (Z.to_nat (vol - i)) with 0%nat by lia. exists st, F. split; auto. split; auto. split; auto. intros c [].
  Qed.

  Lemma read_ok : forall spr fuel (st : rank_store V) G rest, 1 <= spr -> vol < Z.of_nat fuel ->
    exists st', field_read deser sz fuel lat spr (file_of ser ls G ++ rest) st = Done (st', rest) /\ represents lat st' G.
  Proof.
    intros spr fuel st G rest Hspr Hf.
    assert (0 < vol) by (apply zprod_pos, valid_sizes; auto).
    set (F := fun c => st (node_rank lat c) (site_index (nodeinfo lat (node_rank lat c)) c)).
    assert (HF : represents lat st F).
    { intros r c Hr Hh. assert (Hs := holds_is_site lat r c Hv Hr Hh).
      destruct (owner_unique lat c Hv Hs) as [_ H']. unfold F. rewrite <- (proj1 (H' r Hr) Hh). auto. }
    destruct (read_loop_ok spr G rest Hspr fuel 0 st F ltac:(lia) ltac:(lia) HF) as (st' & F' & A & A2 & A3 & _).
    rewrite Z.sub_0_r, global_coordinates_all in A, A3 by (apply valid_sizes; auto).
    exists st'. split.
    - unfold field_read. rewrite <- A. f_equal. f_equal. unfold file_of. rewrite !flat_map_concat_map, map_map. auto.
    - intros r c Hr Hh. rewrite A2 by auto. apply A3. apply sites_In. apply (holds_is_site lat r); auto.
  Qed.

  Lemma read_loop_short : forall spr, 1 <= spr ->
    forall fuel i (st : rank_store V) F bytes, 0 <= i -> Z.max 0 (vol - i) < Z.of_nat fuel -> represents lat st F ->
    Z.of_nat (length bytes) < (vol - i) * sz ->
    read_loop deser sz fuel lat spr i bytes st = ShortFile.
  Proof.
    intros spr Hspr. assert (Hsz : 0 < sz) by apply Hc.
    induction fuel as [|fuel IH]; intros i st F bytes Hi Hf HF Hb; [lia|].
    cbn [read_loop]; cbv zeta. destruct (Z.ltb_spec i vol); [|nia].
    assert (R := read_elements_split ser deser sz Hc (Z.to_nat (Z.min spr (vol - i))) bytes).
    destruct (read_elements deser sz _ bytes) as [[vs rest]|]; auto. destruct R as [R1 R2].
    destruct (scatter_all_ok (chunk_coords ls i (Z.min spr (vol - i))) vs st F) as (st1 & A1 & A2); auto.
    { apply chunk_sites; lia. }
    { rewrite chunk_length, R1. auto. }
    rewrite A1. rewrite Z2Nat.id in R2 by lia. eapply IH; eauto; [lia|lia|].
    destruct (Z.min_spec spr (vol - i)) as [[_ E]|[Hm E]]; rewrite E in *; nia.
  Qed.
End Whole.
