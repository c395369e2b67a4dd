(** C16: reading a configuration of another size. *)
From Verif Require Import Common LayoutModel LayoutSpec LayoutProofs1 LayoutProofs2.
From Verif Require Import ElementModel ElementSpec ElementProofs1 ElementProofs2 IoModel IoSpec IoProofs1.

Definition fits (ls insize : list Z) : Prop := Forall2 (fun n m => 0 < m <= n) ls insize.

Lemma scale_pos : forall ls insize, fits ls insize -> Forall (fun f => 0 < f) (scale_factors ls insize).
Proof.
  intros ls insize H. induction H as [|n m ls ins Hm H IH]; cbn [scale_factors]; constructor; auto.
  apply Z.div_str_pos. lia.
Qed.

Lemma fits_pos : forall ls insize, fits ls insize -> Forall (fun f => 0 < f) insize.
Proof. intros ls insize H. induction H; constructor; auto. lia. Qed.

Lemma copy_covered : forall ls insize, fits ls insize -> forall sci c,
  IoModel.inside insize c = true -> 0 <= sci < zprod (scale_factors ls insize) ->
  covered ls insize (copy_coord ls insize (scale_factors ls insize) sci c) /\
  modulo_size insize (copy_coord ls insize (scale_factors ls insize) sci c) = c /\
  IoModel.inside ls (copy_coord ls insize (scale_factors ls insize) sci c) = true.
Proof.
  intros ls insize H. induction H as [|n m ls ins Hm H IH]; intros sci c Hc Hsci;
    destruct c as [|x c]; cbn [IoModel.inside] in Hc; try discriminate.
  - cbn. auto.
  - rewrite !andb_true_iff in Hc. destruct Hc as [[H1 H2] H3].
    cbn [scale_factors] in *. rewrite zprod_cons in Hsci.
    assert (Hf : 0 < n / m) by (apply Z.div_str_pos; lia).
    assert (HP := zprod_pos _ (scale_pos ls ins H)).
    assert (Hq : 0 <= sci / (n / m) < zprod (scale_factors ls ins)).
    { split; [apply Z.div_pos; lia|]. apply Z.div_lt_upper_bound; lia. }
    destruct (IH (sci / (n / m)) c H3 Hq) as (A & B & C).
    cbn [copy_coord covered modulo_size IoModel.inside].
    assert (Hr := Z.mod_pos_bound sci (n / m) Hf).
    assert (Hn : m * (n / m) <= n) by (apply Z.mul_div_le; lia).
    assert (Hx : 0 <= x + sci mod (n / m) * m < m * (n / m)) by nia.
    rewrite (Z.mod_small (x + _)) by lia.
    split; [split; auto|]. split.
    + rewrite Z.mod_add, Z.mod_small, B by lia. auto.
    + rewrite C. lia.
Qed.

Lemma covered_copy : forall ls insize, fits ls insize -> forall x, covered ls insize x ->
  IoModel.inside insize (modulo_size insize x) = true /\
  exists sci, 0 <= sci < zprod (scale_factors ls insize) /\
    copy_coord ls insize (scale_factors ls insize) sci (modulo_size insize x) = x.
Proof.
  intros ls insize H. induction H as [|n m ls ins Hm H IH]; intros x Hx;
    destruct x as [|a x]; cbn [covered] in Hx; try tauto.
  - cbn. split; auto. exists 0. split; auto. lia.
  - destruct Hx as [Ha Hx]. destruct (IH x Hx) as (A & sci & S1 & S2).
    cbn [modulo_size IoModel.inside scale_factors copy_coord].
    assert (Hf : 0 < n / m) by (apply Z.div_str_pos; lia).
    assert (Hb := Z.mod_pos_bound a m ltac:(lia)).
    split; [rewrite A; lia|].
    assert (Hq : 0 <= a / m < n / m).
    { split; [apply Z.div_pos; lia|]. apply Z.div_lt_upper_bound; lia. }
    exists (a / m + sci * (n / m)). rewrite zprod_cons. split; [nia|].
    rewrite Z.mod_add, Z.div_add, (Z.mod_small (a / m)), (Z.div_small (a / m)) by lia.
    rewrite Z.add_0_l, S2. f_equal.
    replace (a mod m + a / m * m) with a by (rewrite (Z.div_mod a m) at 1; lia).
    apply Z.mod_small. assert (m * (n / m) <= n) by (apply Z.mul_div_le; lia). lia.
Qed.

Lemma copy_0 : forall ls insize, fits ls insize -> forall c, IoModel.inside insize c = true ->
  copy_coord ls insize (scale_factors ls insize) 0 c = c.
Proof.
  intros ls insize H. induction H as [|n m ls ins Hm H IH]; intros c Hc;
    destruct c as [|x c]; cbn [IoModel.inside] in Hc; try discriminate; auto.
  rewrite !andb_true_iff in Hc. destruct Hc as [[H1 H2] H3].
  cbn [scale_factors copy_coord]. rewrite Z.mod_0_l, Z.div_0_l, IH; auto.
  - rewrite Z.mul_0_l, Z.add_0_r, Z.mod_small; auto. lia.
  - assert (0 < n / m) by (apply Z.div_str_pos; lia). lia.
  - assert (0 < n / m) by (apply Z.div_str_pos; lia). lia.
Qed.

Section Sized.
  Context {V B : Type}.
  Variables (ser : V -> list B) (deser : list B -> V) (sz : Z).
  Hypothesis Hcod : codec ser deser sz.
  Variable lat : lattice.
  Hypothesis Hv : valid_lattice lat.
  Variable insize : list Z.
  Local Notation ls := (l_size lat).
  Local Notation sf := (scale_factors (l_size lat) insize).
  Local Notation tvol := (zprod insize).
  Hypothesis Hfit : fits ls insize.

  Lemma put_list_by : forall (f : list Z -> list Z) (G G' : list Z -> V) coords F,
    (forall c, In c coords -> G' (f c) = G c) ->
    forall x, (In x (map f coords) -> put_list F (combine (map f coords) (map G coords)) x = G' x) /\
              (~ In x (map f coords) -> put_list F (combine (map f coords) (map G coords)) x = F x).
  Proof.
    intros f G G' coords F H x.
    replace (map G coords) with (map G' (map f coords)).
    - apply put_list_map.
    - rewrite map_map. apply map_ext_In. auto.
  Qed.

  Lemma copies_ok : forall G coords, Forall (fun c => IoModel.inside insize c = true) coords ->
    forall scis (st : rank_store V) F, Forall (fun s => 0 <= s < zprod sf) scis -> represents lat st F ->
    let L := flat_map (fun sci => map (copy_coord ls insize sf sci) coords) scis in
    exists st' F', copies lat insize sf coords (map G coords) scis st = Some st' /\ represents lat st' F' /\
      (forall x, In x L -> F' x = G (modulo_size insize x)) /\ (forall x, ~ In x L -> F' x = F x).
  Proof.
    intros G coords Hco. induction scis as [|sci scis IH]; intros st F Hs HF; cbn [flat_map copies].
    - exists st, F. split; auto. split; auto. split; auto. intros x [].
    - inversion Hs; subst. rewrite Forall_forall in Hco.
      destruct (scatter_all_ok lat Hv (map (copy_coord ls insize sf sci) coords) (map G coords) st F)
        as (st1 & A1 & A2); auto.
      { apply Forall_forall. intros x Hx. apply in_map_iff in Hx. destruct Hx as (c & <- & Hc).
        apply inside_site. apply copy_covered; auto. }
      { rewrite !map_length. auto. }
      rewrite A1. destruct (IH st1 _ H2 A2) as (st' & F' & B1 & B2 & B3 & B4).
      exists st', F'. split; auto. split; auto.
      assert (P := put_list_by (copy_coord ls insize sf sci) G (fun x => G (modulo_size insize x)) coords F).
      assert (P' := P ltac:(intros c Hc; cbv beta; rewrite (proj1 (proj2 (copy_covered ls insize Hfit sci c (Hco c Hc) H1))); auto)).
      split.
      + intros x Hx. destruct (in_dec site_eq_dec x (flat_map (fun s => map (copy_coord ls insize sf s) coords) scis)) as [Hi|Hi]; auto.
        rewrite B4 by auto. apply in_app_iff in Hx. apply P'. tauto.
      + intros x Hx. rewrite in_app_iff in Hx. rewrite B4 by tauto. apply P'. tauto.
  Qed.

  Definition all_copies (coords : list (list Z)) : list (list Z) :=
    flat_map (fun sci => map (copy_coord ls insize sf sci) coords) (zrange 0 (Z.to_nat (zprod sf))).

  Lemma all_copies_app : forall a b x, In x (all_copies (a ++ b)) <-> In x (all_copies a) \/ In x (all_copies b).
  Proof.
    intros a b x. unfold all_copies. rewrite !in_flat_map. split.
    - intros (s & Hs & Hx). rewrite map_app, in_app_iff in Hx. destruct Hx; [left|right]; eauto.
    - intros [(s & Hs & Hx)|(s & Hs & Hx)]; exists s; rewrite map_app, in_app_iff; auto.
  Qed.

  (** First scatter and copies together. *)
  Lemma chunk_ok : forall G coords (st : rank_store V) F,
    Forall (fun c => IoModel.inside insize c = true) coords -> represents lat st F ->
    exists st1 st2 F', scatter_all lat coords (map G coords) st = Some st1 /\
      copies lat insize sf coords (map G coords) (zrange 1 (Z.to_nat (zprod sf - 1))) st1 = Some st2 /\
      represents lat st2 F' /\
      (forall x, In x (all_copies coords) -> F' x = G (modulo_size insize x)) /\
      (forall x, ~ In x (all_copies coords) -> F' x = F x).
  Proof.
    intros G coords st F Hco HF.
    assert (HP : 0 < zprod sf) by (apply zprod_pos, scale_pos; auto).
    destruct (copies_ok G coords Hco (zrange 0 (Z.to_nat (zprod sf))) st F) as (st' & F' & A & A2 & A3 & A4); auto.
    { apply Forall_forall. intros s Hs. apply zrange_In in Hs. lia. }
    replace (Z.to_nat (zprod sf)) with (S (Z.to_nat (zprod sf - 1))) in A by lia.
    cbn [zrange copies] in A. change (0 + 1) with 1 in A.
    rewrite (map_ext_In _ _ (copy_coord ls insize sf 0) (fun c => c)) in A.
    2:{ intros c Hc. apply copy_0; auto. rewrite Forall_forall in Hco. auto. }
    rewrite map_id in A. destruct (scatter_all lat coords (map G coords) st) as [st1|]; [|discriminate].
    exists st1, st', F'. auto.
  Qed.

  Lemma chunk_inside : forall i n, 0 <= i -> i + n <= tvol ->
    Forall (fun c => IoModel.inside insize c = true) (chunk_coords insize i n).
  Proof.
    intros i n Hi Hn. apply Forall_forall. intros c H. apply in_map_iff in H. destruct H as (j & <- & H).
    apply zrange_In in H. apply inside_site, global_coordinates_site; [apply (fits_pos ls); auto|lia].
  Qed.

  Lemma read_sized_loop_ok : forall spr G rest, 1 <= spr ->
    forall fuel i (st : rank_store V) F, 0 <= i -> Z.max 0 (tvol - i) < Z.of_nat fuel -> represents lat st F ->
    let coords := map (global_coordinates insize) (zrange i (Z.to_nat (tvol - i))) in
    exists st' F', read_sized_loop deser sz fuel lat insize spr i (flat_map ser (map G coords) ++ rest) st = Done (st', rest) /\
      represents lat st' F' /\
      (forall x, In x (all_copies coords) -> F' x = G (modulo_size insize x)) /\
      (forall x, ~ In x (all_copies coords) -> F' x = F x).
  Proof.
    intros spr G rest Hspr. induction fuel as [|fuel IH]; intros i st F Hi Hf HF; [lia|].
    cbn [read_sized_loop]; cbv zeta. destruct (Z.ltb_spec i tvol).
    - set (n := Z.min spr (tvol - i)). assert (Hn : 0 <= n <= tvol - i) by lia.
      rewrite (tail_split i n tvol) by lia. rewrite !map_app, flat_map_app, <- app_assoc.
      fold (chunk_coords insize i n).
      replace (Z.to_nat n) with (length (map G (chunk_coords insize i n))) by (rewrite map_length; apply chunk_length).
      rewrite (read_elements_ok ser deser sz Hcod).
      destruct (chunk_ok G (chunk_coords insize i n) st F) as (st1 & st2 & F1 & A1 & A2 & A3 & A4 & A5); auto.
      { apply chunk_inside; lia. }
      rewrite A1, A2.
      assert (Erest : zrange (i + n) (Z.to_nat (tvol - (i + n))) = zrange (i + spr) (Z.to_nat (tvol - (i + spr)))).
      { unfold n. destruct (Z.min_spec spr (tvol - i)) as [[_ ->]|[Hm ->]]; auto.
        replace (Z.to_nat (tvol - (i + spr))) with 0%nat by lia.
        replace (Z.to_nat (tvol - (i + (tvol - i)))) with 0%nat by lia. auto. }
      rewrite Erest.
      destruct (IH (i + spr) st2 _ ltac:(lia) ltac:(lia) A3) as (st' & F' & B1 & B2 & B3 & B4).
      exists st', F'. split; auto. split; auto.
      set (later := map (global_coordinates insize) (zrange (i + spr) (Z.to_nat (tvol - (i + spr))))) in *.
      split.
      + intros c Hcin. destruct (in_dec site_eq_dec c (all_copies later)) as [Hl|Hl]; auto. rewrite B4 by auto.
        apply all_copies_app in Hcin. apply A4. tauto.
      + intros c Hcin. rewrite all_copies_app in Hcin. rewrite B4 by tauto. apply A5. tauto.
    - replace (Z.to_nat (tvol - i)) with 0%nat by lia. exists st, F. split; auto. split; auto.
      assert (E : forall x, ~ In x (all_copies [])).
      { intros x Hx. apply in_flat_map in Hx. destruct Hx as (s & _ & []). }
      split; auto. intros x Hx. elim (E x Hx).
  Qed.

  Lemma all_copies_covered : forall x,
    In x (all_copies (map (global_coordinates insize) (zrange 0 (Z.to_nat tvol)))) <-> covered ls insize x.
  Proof.
    intros x. rewrite global_coordinates_all by (apply (fits_pos ls); auto). unfold all_copies. rewrite in_flat_map. split.
    - intros (s & Hs & Hx). apply zrange_In in Hs. apply in_map_iff in Hx. destruct Hx as (c & <- & Hc).
      apply copy_covered; auto; [|lia]. apply inside_site, sites_In; auto.
    - intros Hx. destruct (covered_copy ls insize Hfit x Hx) as (A & s & S1 & S2). exists s. split.
      + apply zrange_In. lia.
      + apply in_map_iff. exists (modulo_size insize x). split; auto. apply sites_In, inside_site; auto.
  Qed.

  Lemma read_sized_ok : forall spr fuel (st : rank_store V) F G rest, 1 <= spr -> tvol < Z.of_nat fuel ->
    represents lat st F ->
    exists st' F', field_read_sized deser sz fuel lat insize spr (file_of ser insize G ++ rest) st = Done (st', rest) /\
      represents lat st' F' /\
      (forall x, covered ls insize x -> F' x = G (modulo_size insize x)) /\
      (forall x, ~ covered ls insize x -> F' x = F x).
  Proof.
    intros spr fuel st F G rest Hspr Hf HF.
    assert (0 < tvol) by (apply zprod_pos, (fits_pos ls); auto).
    destruct (read_sized_loop_ok spr G rest Hspr fuel 0 st F ltac:(lia) ltac:(lia) HF) as (st' & F' & A & A2 & A3 & A4).
    rewrite Z.sub_0_r in *. exists st', F'. split; [|split; [auto|split]].
    - unfold field_read_sized. rewrite <- A. f_equal. f_equal.
      rewrite global_coordinates_all by (apply (fits_pos ls); auto).
      unfold file_of. rewrite !flat_map_concat_map, map_map. auto.
    - intros x Hx. apply A3, all_copies_covered. auto.
    - intros x Hx. apply A4. rewrite all_copies_covered. auto.
  Qed.
End Sized.

(** ** Sizes that divide, and sizes that do not *)
Lemma covered_divides : forall ls insize, Forall2 (fun n m => 0 < m /\ (m | n)) ls insize ->
  forall x, is_site ls x -> covered ls insize x.
Proof.
  intros ls insize H. intros x Hx. apply inside_site in Hx. revert x Hx.
  induction H as [|n m ls ins [Hm [k Hk]] H IH]; intros [|a x] Hx; cbn [IoModel.inside] in Hx; try discriminate.
  - exact I.
  - rewrite !andb_true_iff in Hx. destruct Hx as [[H1 H2] H3]. cbn [covered]. split; auto.
    rewrite Hk, Z.div_mul by lia. lia.
Qed.

Lemma divides_fits : forall ls insize, Forall (fun n => 0 < n) ls ->
  Forall2 (fun n m => 0 < m /\ (m | n)) ls insize -> fits ls insize.
Proof.
  intros ls insize Hp H. induction H as [|n m ls ins [Hm Hd] H IH]; constructor.
  - inversion Hp; subst. apply Z.divide_pos_le in Hd; lia.
  - inversion Hp; subst. apply IH. auto.
Qed.

Lemma uncovered_exists : forall ls insize, fits ls insize -> Forall (fun n => 0 < n) ls ->
  ~ Forall2 (fun n m => (m | n)) ls insize -> exists x, is_site ls x /\ ~ covered ls insize x.
Proof.
  intros ls insize H Hp. 
  assert (G : ~ Forall2 (fun n m => (m | n)) ls insize -> exists x, IoModel.inside ls x = true /\ ~ covered ls insize x).
  { revert Hp. induction H as [|n m ls ins Hm H IH]; intros Hp Hn.
    - elim Hn. constructor.
    - inversion Hp; subst. destruct (Znumtheory.Zdivide_dec m n) as [Hd|Hd].
      + destruct IH as (x & X1 & X2); auto.
        exists (0 :: x). cbn [IoModel.inside covered]. rewrite X1. split; [lia|]. tauto.
      + exists ((n - 1) :: map (fun _ => 0) ls). split.
        * cbn [IoModel.inside]. assert (IoModel.inside ls (map (fun _ => 0) ls) = true).
          { clear - H3. induction H3; cbn; auto. rewrite IHForall. lia. }
          rewrite H0. lia.
        * cbn [covered]. intros [[_ C] _]. assert (E := Z.div_mod n m ltac:(lia)).
          assert (R := Z.mod_pos_bound n m ltac:(lia)). apply Hd. exists (n / m). lia. }
  intros Hn. destruct (G Hn) as (x & X1 & X2). exists x. split; auto. apply inside_site. auto.
Qed.

(** ** A stored size larger than the lattice *)
Section Larger.
  Context {V B : Type}.
  Variables (ser : V -> list B) (deser : list B -> V) (sz : Z).
  Hypothesis Hcod : codec ser deser sz.
  Variable lat : lattice.
  Hypothesis Hv : valid_lattice lat.
  Variable insize : list Z.
  Hypothesis Hpos : Forall (fun n => 0 < n) insize.
  Hypothesis Hlen : length insize = length (l_size lat).
  Variable d : nat.
  Hypothesis Hd : (d < length insize)%nat.
  Hypothesis Hlarge : nth d (l_size lat) 0 < nth d insize 0.

  Lemma scale_zero : zprod (scale_factors (l_size lat) insize) = 0.
  Proof.
    assert (Hs := valid_sizes lat Hv). revert Hs Hlen Hd Hlarge Hpos. generalize (l_size lat) insize d. clear.
    induction l as [|n l IH]; intros [|m ins] [|k] Hs Hl Hd Hk Hp; cbn in Hd, Hl; try lia; cbn [scale_factors]; rewrite zprod_cons.
    - cbn in Hk. inversion Hs; inversion Hp; subst. rewrite Z.div_small by lia. lia.
    - inversion Hs; inversion Hp; subst. rewrite (IH ins k); auto; lia.
  Qed.

  Lemma outside_site : exists i, 0 <= i < zprod insize /\ IoModel.inside (l_size lat) (global_coordinates insize i) = false.
  Proof.
    set (c := map (fun m => m - 1) insize).
    assert (Hc : In c (sites_in_file_order insize)).
    { apply sites_In. unfold c, is_site. split; [apply map_length|]. intros j Hj.
      rewrite (nth_indep (map _ insize) 0 ((fun m => m - 1) 0)) by (rewrite map_length; auto).
      rewrite (map_nth (fun m => m - 1)). rewrite Forall_forall in Hpos. specialize (Hpos _ (nth_In insize 0 Hj)). lia. }
    rewrite <- global_coordinates_all in Hc by auto. apply in_map_iff in Hc. destruct Hc as (i & E & Hi).
    apply zrange_In in Hi. exists i. split; [lia|]. rewrite E.
    destruct (IoModel.inside (l_size lat) c) eqn:Ei; auto. apply inside_site in Ei. destruct Ei as [_ Ei].
    specialize (Ei d ltac:(lia)). unfold c in Ei.
    rewrite (nth_indep (map _ insize) 0 ((fun m => m - 1) 0)) in Ei by (rewrite map_length; auto).
    rewrite (map_nth (fun m => m - 1)) in Ei. lia.
  Qed.

  Lemma larger_fault : forall spr G rest, 1 <= spr ->
    forall fuel i (st : rank_store V) F, 0 <= i -> Z.max 0 (zprod insize - i) < Z.of_nat fuel -> represents lat st F ->
    (exists j, i <= j < zprod insize /\ IoModel.inside (l_size lat) (global_coordinates insize j) = false) ->
    read_sized_loop deser sz fuel lat insize spr i
      (flat_map ser (map G (map (global_coordinates insize) (zrange i (Z.to_nat (zprod insize - i))))) ++ rest) st = Fault.
  Proof.
    intros spr G rest Hspr. induction fuel as [|fuel IH]; intros i st F Hi Hf HF (j & Hj & Ej); [lia|].
    cbn [read_sized_loop]; cbv zeta. replace (i <? zprod insize) with true by lia.
    set (n := Z.min spr (zprod insize - i)). assert (Hn : 0 <= n <= zprod insize - i) by lia.
    rewrite (tail_split i n (zprod insize)) by lia. rewrite !map_app, flat_map_app, <- app_assoc.
    fold (chunk_coords insize i n).
    replace (Z.to_nat n) with (length (map G (chunk_coords insize i n))) by (rewrite map_length; apply chunk_length).
    rewrite (read_elements_ok ser deser sz Hcod).
    destruct (forallb (IoModel.inside (l_size lat)) (chunk_coords insize i n)) eqn:Ein.
    - assert (Hs : Forall (is_site (l_size lat)) (chunk_coords insize i n)).
      { apply Forall_forall. intros c Hc. apply inside_site. rewrite forallb_forall in Ein. auto. }
      destruct (scatter_all_ok lat Hv (chunk_coords insize i n) (map G (chunk_coords insize i n)) st F) as (st1 & A1 & A2); auto.
      { rewrite map_length. auto. }
      rewrite A1, scale_zero. cbn [Z.to_nat Z.sub Z.add Z.opp zrange copies].
      assert (Hjn : i + n <= j).
      { destruct (Z.lt_ge_cases j (i + n)) as [Hlt|]; auto. rewrite forallb_forall in Ein.
        rewrite Ein in Ej; [discriminate|]. unfold chunk_coords. apply in_map. apply zrange_In. lia. }
      assert (n = spr) by lia. rewrite H. eapply IH; eauto; try lia. exists j. split; auto. lia.
    - unfold scatter_all. rewrite Ein. reflexivity.
  Qed.

  Lemma larger_faults : forall spr fuel (st : rank_store V) F G rest, 1 <= spr -> zprod insize < Z.of_nat fuel ->
    represents lat st F ->
    field_read_sized deser sz fuel lat insize spr (file_of ser insize G ++ rest) st = Fault.
  Proof.
    intros spr fuel st F G rest Hspr Hf HF.
    assert (0 < zprod insize) by (apply zprod_pos; auto).
    unfold field_read_sized. rewrite <- (larger_fault spr G rest Hspr fuel 0 st F); auto; try lia.
    - rewrite Z.sub_0_r. rewrite global_coordinates_all by auto. f_equal. f_equal.
      unfold file_of. rewrite !flat_map_concat_map, map_map. auto.
    - destruct outside_site as (i & Hi & E). eauto.
  Qed.
End Larger.
