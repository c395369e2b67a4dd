(** Proofs about cluster labels. *)
From Verif Require Import Common LayoutModel LayoutSpec LayoutProofs4 LayoutProofs8 ReduceSpec SelectModel SelectProofs1.
From Verif Require Import ClusterModel ClusterSpec.

(** ** Encoding (C27) *)
Lemma lxor_lor' : forall a b, Z.land a b = 0 -> Z.lor a b = a + b.
Proof. intros. rewrite Z.add_nocarry_lxor by auto. symmetry. apply Z.lxor_lor; auto. Qed.

Lemma lor_shift : forall i t, 0 <= i < 2 ^ 54 -> 0 <= t -> Z.lor i (Z.shiftl t 54) = t * 2 ^ 54 + i.
Proof.
  intros i t Hi Ht. rewrite lxor_lor'.
  - rewrite Z.shiftl_mul_pow2 by lia. ring.
  - apply Z.bits_inj'. intros n Hn. rewrite Z.land_spec, Z.bits_0.
    destruct (Z.lt_ge_cases n 54).
    + rewrite Z.shiftl_spec_low by auto. apply andb_false_r.
    + assert (E : Z.testbit i n = false); [|rewrite E; auto]. apply Z.testbit_false; auto. rewrite Z.div_small; auto.
      split; [lia|]. apply Z.lt_le_trans with (2 ^ 54); [lia|]. apply Z.pow_le_mono_r; lia.
Qed.

Lemma set_label_value : forall ls c t, zprod ls <= 2 ^ 54 -> is_site ls c -> 0 <= t < 255 ->
  set_cl_label ls c t = label_value ls c t.
Proof.
  intros ls c t Hz Hc Ht. unfold set_cl_label, background, label_value.
  destruct (Z.eqb_spec t 255); [lia|]. assert (Hi := index_range _ _ Hc).
  rewrite Z.mod_small by (rewrite Z.shiftl_mul_pow2; lia). apply lor_shift; lia.
Qed.

Lemma set_label_background : forall ls c, set_cl_label ls c 255 = background_label.
Proof. reflexivity. Qed.

Lemma type_of : forall t i, 0 <= t < 256 -> 0 <= i < 2 ^ 54 -> get_cl_label_type (t * 2 ^ 54 + i) = t.
Proof.
  intros t i Ht Hi. unfold get_cl_label_type. rewrite Z.shiftr_div_pow2 by lia.
  replace ((t * 2 ^ 54 + i) / 2 ^ 54) with t by (apply (Z.div_unique _ _ _ i); lia).
  rewrite Z.land_comm. change 255 with (Z.ones 8). rewrite Z.land_ones by lia. apply Z.mod_small. lia.
Qed.

Lemma type_background : get_cl_label_type background_label = 255.
Proof. reflexivity. Qed.

Lemma type_label : forall ls x t, zprod ls <= 2 ^ 54 -> is_site ls x -> 0 <= t < 255 ->
  get_cl_label_type (label_value ls x t) = t.
Proof.
  intros ls x t Hz Hx Ht. assert (Hi := index_range _ _ Hx). unfold label_value. apply type_of; lia.
Qed.

(** ** Connectedness *)
Section Conn.
  Variable ls : list Z.
  Variable type : list Z -> Z.

  Lemma conn_trans : forall x y z, connected ls type x y -> connected ls type y z -> connected ls type x z.
  Proof. intros x y z H1 H2. induction H2; auto. eapply conn_step; eauto. Qed.

  Lemma conn_one : forall x y, step ls type x y -> connected ls type x y.
  Proof. intros. eapply conn_step; [constructor|auto]. Qed.

  Lemma conn_type : forall x y, connected ls type x y -> type x = type y.
  Proof. induction 1; auto. destruct H0 as (_ & _ & E & _). congruence. Qed.

  Lemma conn_site : forall x y, is_site ls x -> connected ls type x y -> is_site ls y.
  Proof. intros x y Hx H. destruct H; auto. apply H0. Qed.
End Conn.

(** ** The relaxation *)
Section Relax.
  Variable lat : lattice.
  Hypothesis Hv : valid_lattice lat.
  Variable type : list Z -> Z.
  Let ls := l_size lat.
  Hypothesis Hsmall : zprod ls <= 2 ^ 54.
  Hypothesis Htype : forall x, is_site ls x -> 0 <= type x <= 255.
  Let L (x : list Z) : Z := label_value ls x (type x).

  Lemma ls_pos : Forall (fun x => 0 < x) ls.
  Proof. apply Hv. Qed.

  Lemma nbr_is_site : forall x d, is_direction ls d -> is_site ls x -> is_site ls (neighbour lat x d).
  Proof. intros. apply nbr_site; auto. apply ls_pos. Qed.

  Lemma step_neighbour : forall x d, is_direction ls d -> is_site ls x -> type x = type (neighbour lat x d) ->
    type x <> 255 -> step ls type x (neighbour lat x d).
  Proof.
    intros x d Hd Hx Ht Hb. split; [auto|]. split; [apply nbr_is_site; auto|]. split; [auto|]. split; [auto|].
    exists d. split; auto. apply (nbr_periodic ls ls_pos d Hd); auto.
  Qed.

  Lemma step_is_neighbour : forall x y, step ls type x y -> exists d, is_direction ls d /\ y = neighbour lat x d.
  Proof.
    intros x y (Hx & Hy & Ht & Hb & d & Hd & Hp). exists d. split; auto. apply neighbour_periodic; auto.
  Qed.

  Lemma step_sym : forall x y, step ls type x y -> step ls type y x.
  Proof.
    intros x y H. destruct (step_is_neighbour x y H) as (d & Hd & E). destruct H as (Hx & Hy & Ht & Hb & _).
    assert (Hd' : is_direction ls (opp_dir (Z.of_nat (length ls)) d)) by (apply opp_dir_range; auto).
    assert (Ex : neighbour lat y (opp_dir (Z.of_nat (length ls)) d) = x).
    { rewrite E. unfold neighbour. apply nbr_opp_inverse; auto. apply ls_pos. }
    rewrite <- Ex. apply step_neighbour; auto; rewrite ?Ex; congruence.
  Qed.

  Lemma conn_sym : forall x y, connected ls type x y -> connected ls type y x.
  Proof.
    induction 1; [constructor|]. eapply conn_trans; [|eauto]. apply conn_one, step_sym; auto.
  Qed.

  Lemma type_L : forall x, is_site ls x -> type x <> 255 -> get_cl_label_type (L x) = type x.
  Proof. intros x Hx Hb. assert (A := Htype x Hx). apply type_label; auto. lia. Qed.

  Definition Inv (labels : label_field) : Prop := forall x, is_site ls x ->
    (type x = 255 -> labels x = background_label) /\
    (type x <> 255 -> labels x <= L x /\ exists y, connected ls type x y /\ labels x = L y).

  Lemma Inv_type : forall labels x, Inv labels -> is_site ls x -> get_cl_label_type (labels x) = type x.
  Proof.
    intros labels x HI Hx. destruct (HI x Hx) as [H1 H2]. destruct (Z.eq_dec (type x) 255) as [E|E].
    - rewrite H1 by auto. rewrite type_background. auto.
    - destruct (H2 E) as (_ & y & Hc & ->). rewrite type_L; [|eapply conn_site; eauto|rewrite <- (conn_type _ _ _ _ Hc); auto].
      symmetry. eapply conn_type; eauto.
  Qed.

  Lemma Inv_init : Inv (fun c => set_cl_label ls c (type c)).
  Proof.
    intros x Hx. split.
    - intros ->. reflexivity.
    - intros Hb. assert (A := Htype x Hx). rewrite set_label_value by (auto; lia). split; [unfold L; lia|].
      exists x. split; [constructor|auto].
  Qed.

  Lemma coords_eqb_spec : forall a b, reflect (a = b) (coords_eqb a b).
  Proof. intros. unfold coords_eqb. destruct (list_eq_dec Z.eq_dec a b); constructor; auto. Qed.

  Lemma Inv_nonneg : forall labels x, Inv labels -> is_site ls x -> 0 <= labels x.
  Proof.
    intros labels x HI Hx. destruct (HI x Hx) as [H1 H2]. destruct (Z.eq_dec (type x) 255) as [E|E].
    - rewrite H1 by auto. unfold background_label. lia.
    - destruct (H2 E) as (_ & y & Hc & ->). unfold L, label_value.
      assert (Hy : is_site ls y) by (eapply conn_site; eauto). assert (A := index_range _ _ Hy). assert (B := Htype y Hy). nia.
  Qed.

  (** Sum of the labels over a list of all sites. *)
  Variable sites : list (list Z).
  Hypothesis Hsites : enumerates ls ALL sites.
  Definition sum_labels (labels : label_field) : Z := zsum (map labels sites).

  Lemma in_sites : forall x, In x sites <-> is_site ls x.
  Proof. intros. destruct Hsites as [_ H]. rewrite H. cbn. tauto. Qed.

  Lemma sum_set : forall labels x v, is_site ls x ->
    sum_labels (set_label labels x v) = sum_labels labels - labels x + v.
  Proof.
    intros labels x v Hx. apply in_sites in Hx. destruct Hsites as [Hnd _]. unfold sum_labels. clear Hsites.
    induction sites as [|a l IH]; [destruct Hx|]. inversion Hnd; subst. cbn [map]. rewrite !zsum_cons.
    destruct Hx as [->|Hx].
    - assert (E : map (set_label labels x v) l = map labels l).
      { apply map_ext_in. intros c Hc. unfold set_label. destruct (coords_eqb_spec x c); congruence. }
      rewrite E. unfold set_label at 1. destruct (coords_eqb_spec x x); [lia|congruence].
    - rewrite IH by auto. unfold set_label at 1. destruct (coords_eqb_spec x a); [congruence|lia].
  Qed.

  Lemma sum_nonneg : forall labels, Inv labels -> 0 <= sum_labels labels.
  Proof.
    intros labels HI. unfold sum_labels. assert (H : forall x, In x sites -> 0 <= labels x).
    { intros x Hx. apply Inv_nonneg; auto. apply in_sites; auto. }
    clear Hsites. induction sites; cbn [map]; [cbn; lia|]. rewrite zsum_cons.
    assert (A := H a (or_introl eq_refl)). assert (0 <= zsum (map labels l)) by (apply IHl; intros; apply H; right; auto). lia.
  Qed.

  (** What a part of a round does: the invariant is kept, the labels sink at least
      as much as the count rises, and if the count stays, nothing has changed. *)
  Definition progress (s s' : label_field * Z) : Prop :=
    Inv (fst s') /\ sum_labels (fst s') + snd s' <= sum_labels (fst s) + snd s /\ snd s <= snd s' /\
    (snd s' = snd s -> s' = s).

  Lemma progress_refl : forall s, Inv (fst s) -> progress s s.
  Proof. intros. unfold progress. split; [auto|]. split; [lia|]. split; [lia|auto]. Qed.

  Lemma progress_trans : forall a b c, progress a b -> progress b c -> progress a c.
  Proof.
    intros a b c (A1 & A2 & A3 & A4) (B1 & B2 & B3 & B4). unfold progress. split; auto. split; [lia|]. split; [lia|].
    intros E. rewrite B4 by lia. apply A4. lia.
  Qed.

  Lemma relax_progress : forall start fresh x, Inv start -> is_site ls x -> type x <> 255 ->
    forall ds, (forall d, In d ds -> is_direction ls d) -> forall s, Inv (fst s) ->
    let s' := relax lat start fresh x (type x) ds s in
    progress s s' /\
    (s' = s -> start = fst s -> forall d, In d ds -> type (neighbour lat x d) = type x -> fst s x <= fst s (neighbour lat x d)).
  Proof.
    intros start fresh x Hstart Hx Hb. induction ds as [|d ds IH]; intros Hds [labels n] HI; cbv zeta; cbn [relax].
    - split; [apply progress_refl; auto|]. intros _ _ d [].
    - assert (Hd : is_direction ls d) by (apply Hds; left; auto).
      assert (Hds' : forall d, In d ds -> is_direction ls d) by (intros; apply Hds; right; auto).
      set (y := neighbour lat x d). set (l1 := if fresh x d then labels y else start y).
      assert (Hy : is_site ls y) by (apply nbr_is_site; auto).
      assert (Hl1 : exists f, Inv f /\ l1 = f y) by (unfold l1; destruct (fresh x d); eauto).
      destruct Hl1 as (f & Hf & El1). cbn [fst] in HI.
      assert (Et : get_cl_label_type l1 = type y) by (rewrite El1; apply Inv_type; auto).
      destruct ((type x =? get_cl_label_type l1) && (l1 <? labels x)) eqn:E.
      + apply andb_true_iff in E. destruct E as [E1 E2]. apply Z.eqb_eq in E1. apply Z.ltb_lt in E2.
        assert (HI' : Inv (set_label labels x l1)).
        { intros c Hc. unfold set_label. destruct (coords_eqb_spec x c) as [<-|Hne]; [|apply HI; auto].
          split; [congruence|]. intros _. destruct (proj2 (HI x Hx) Hb) as (Hle & _). split; [lia|].
          assert (Hty : type y <> 255) by congruence. destruct (proj2 (Hf y Hy) Hty) as (_ & z & Hc' & Ez).
          exists z. split; [|congruence]. eapply conn_trans; [|eauto]. apply conn_one, step_neighbour; auto. fold y. congruence. }
        destruct (IH Hds' (set_label labels x l1, n + 1) HI') as [(P1 & P2 & P3 & P4) _].
        set (s' := relax lat start fresh x (type x) ds (set_label labels x l1, n + 1)) in *.
        cbn [fst snd] in *. rewrite sum_set in P2 by auto.
        split; [unfold progress; cbn [fst snd]; split; [auto|split; [lia|split; [lia|intros; lia]]]|].
        intros Es. rewrite Es in P3. cbn in P3. lia.
      + destruct (IH Hds' (labels, n) HI) as [P Q]. split; auto.
        intros Es Estart d' [<-|Hin]; [|apply Q; auto]. fold y. intros Ety. cbn [fst] in *.
        apply andb_false_iff in E. destruct E as [E|E]; [apply Z.eqb_neq in E; congruence|]. apply Z.ltb_ge in E.
        assert (l1 = labels y) by (unfold l1; rewrite Estart; destruct (fresh x d); auto). lia.
  Qed.

  Definition stable_at (labels : label_field) (x : list Z) : Prop :=
    type x <> 255 -> forall d, is_direction ls d -> type (neighbour lat x d) = type x ->
    labels x <= labels (neighbour lat x d).

  Lemma dirs_In : forall d, In d (zrange 0 (2 * length ls)) <-> is_direction ls d.
  Proof. intros. rewrite zrange_In. unfold is_direction. lia. Qed.

  Lemma visit_progress : forall start fresh x s, Inv start -> is_site ls x -> Inv (fst s) ->
    let s' := visit_site lat start fresh s x in
    progress s s' /\ (s' = s -> start = fst s -> stable_at (fst s) x).
  Proof.
    intros start fresh x s Hs Hx HI. cbv zeta. unfold visit_site. rewrite (Inv_type _ _ HI Hx). unfold background.
    destruct (Z.eqb_spec (type x) 255) as [E|E].
    - split; [apply progress_refl; auto|]. intros _ _ Hb. congruence.
    - fold ls. destruct (relax_progress start fresh x Hs Hx E (zrange 0 (2 * length ls))) with (s := s) as [P Q]; auto.
      { intros d. apply dirs_In. }
      split; auto. intros Es Est _ d Hd. apply Q; auto. apply dirs_In; auto.
  Qed.

  Lemma fold_progress : forall start fresh order s, Inv start -> (forall x, In x order -> is_site ls x) -> Inv (fst s) ->
    let s' := fold_left (visit_site lat start fresh) order s in
    progress s s' /\ (s' = s -> start = fst s -> forall x, In x order -> stable_at (fst s) x).
  Proof.
    intros start fresh. induction order as [|x order IH]; intros s Hs Ho HI; cbv zeta; cbn [fold_left].
    - split; [apply progress_refl; auto|]. intros _ _ x [].
    - destruct (visit_progress start fresh x s Hs) as [P Q]; auto; [apply Ho; left; auto|].
      set (s1 := visit_site lat start fresh s x) in *.
      destruct (IH s1 Hs) as [P' Q']; [intros; apply Ho; right; auto|apply P|].
      set (s' := fold_left (visit_site lat start fresh) order s1) in *.
      split; [eapply progress_trans; eauto|]. intros Es Est y Hy.
      assert (E1 : s1 = s). { destruct P as (_ & _ & P3 & P4). destruct P' as (_ & _ & P3' & _). rewrite Es in P3'. apply P4. lia. }
      destruct Hy as [<-|Hy]; [apply Q; auto|]. rewrite E1 in *. apply Q'; auto.
  Qed.

  Lemma round_progress : forall rd labels, complete_round ls rd -> Inv labels ->
    let s' := one_round lat rd labels in
    progress (labels, 0) s' /\ (snd s' = 0 -> fst s' = labels /\ forall x, is_site ls x -> stable_at labels x).
  Proof.
    intros rd labels [He Ho] HI. cbv zeta. unfold one_round, parity_loop. cbn [fst].
    destruct (fold_progress labels (even_fresh rd) (even_order rd) (labels, 0)) as [P Q]; auto.
    { intros x Hx. apply He in Hx. tauto. }
    set (s1 := fold_left (visit_site lat labels (even_fresh rd)) (even_order rd) (labels, 0)) in *.
    destruct (fold_progress (fst s1) (odd_fresh rd) (odd_order rd) s1) as [P' Q']; try apply P.
    { intros x Hx. apply Ho in Hx. tauto. }
    set (s2 := fold_left (visit_site lat (fst s1) (odd_fresh rd)) (odd_order rd) s1) in *.
    split; [eapply progress_trans; eauto|]. intros E.
    destruct P as (_ & _ & P3 & P4). destruct P' as (_ & _ & P3' & P4'). cbn [snd] in *.
    assert (E1 : s1 = (labels, 0)) by (apply P4; lia).
    assert (E2 : s2 = s1) by (apply P4'; rewrite E1; cbn; lia).
    split; [rewrite E2, E1; auto|]. intros x Hx. rewrite E1 in Q'. cbn [fst] in Q, Q'.
    destruct (Z.eq_dec (zsum x mod 2) 0) as [Hev|Hod].
    - apply Q; auto. apply He. split; auto.
    - apply Q'; auto; [congruence|]. apply Ho. split; auto.
  Qed.

  Lemma loop_terminates : forall rounds, (forall k, complete_round ls (rounds k)) ->
    forall m labels k, Inv labels -> sum_labels labels < Z.of_nat m -> exists labels', relax_loop m lat rounds k labels = Some labels'.
  Proof.
    intros rounds Hr. induction m; intros labels k HI Hm.
    - assert (A := sum_nonneg labels HI). lia.
    - cbn [relax_loop]. destruct (round_progress (rounds k) labels (Hr k) HI) as [(P1 & P2 & P3 & P4) _].
      destruct (one_round lat (rounds k) labels) as [labels' n]. cbn [fst snd] in *.
      destruct (Z.ltb_spec 0 n); [|eauto]. apply IHm; auto. lia.
  Qed.

  Lemma loop_result : forall rounds, (forall k, complete_round ls (rounds k)) ->
    forall m labels k labels', Inv labels -> relax_loop m lat rounds k labels = Some labels' ->
    Inv labels' /\ forall x, is_site ls x -> stable_at labels' x.
  Proof.
    intros rounds Hr. induction m; intros labels k labels' HI E; [discriminate|].
    cbn [relax_loop] in E. destruct (round_progress (rounds k) labels (Hr k) HI) as [(P1 & P2 & P3 & P4) Q].
    destruct (one_round lat (rounds k) labels) as [l1 n]. cbn [fst snd] in *.
    destruct (Z.ltb_spec 0 n); [eapply IHm; eauto|]. injection E as <-. destruct Q as [-> Q]; [lia|]. auto.
  Qed.

  (** Stable labels are constant on clusters and minimal. *)
  Lemma stable_correct : forall labels, Inv labels -> (forall x, is_site ls x -> stable_at labels x) ->
    correct_labels ls type labels.
  Proof.
    intros labels HI Hst x Hx. split; [apply (HI x Hx)|]. intros Hb.
    assert (Hedge : forall a b, step ls type a b -> labels a <= labels b).
    { intros a b Hab. destruct (step_is_neighbour a b Hab) as (d & Hd & ->).
      destruct Hab as (Ha & _ & Ht & Hba & _). apply (Hst a Ha); auto. }
    assert (Hconst : forall z, connected ls type x z -> labels z = labels x).
    { intros z Hc. induction Hc; auto. assert (A := Hedge _ _ H). assert (B := Hedge _ _ (step_sym _ _ H)). lia. }
    destruct (proj2 (HI x Hx) Hb) as (_ & y & Hc & Ey). exists y. split.
    - split; auto. intros z Hz. assert (Hsz : is_site ls z) by (eapply conn_site; eauto).
      assert (Htz : type x = type z) by (eapply conn_type; eauto). assert (Hty : type x = type y) by (eapply conn_type; eauto).
      destruct (proj2 (HI z Hsz)) as (Hle & _); [congruence|]. rewrite (Hconst z Hz), Ey in Hle.
      unfold L, label_value in Hle. rewrite <- Hty, <- Htz in Hle. lia.
    - rewrite Ey. unfold L. f_equal. symmetry. eapply conn_type; eauto.
  Qed.
End Relax.

(** ** What correct labels say about two sites *)
Section Correct.
  Variable lat : lattice.
  Hypothesis Hv : valid_lattice lat.
  Variable type : list Z -> Z.
  Hypothesis Hsmall : zprod (l_size lat) <= 2 ^ 54.
  Hypothesis Htype : forall x, is_site (l_size lat) x -> 0 <= type x <= 255.
  Variable labels : list Z -> Z.
  Hypothesis Hc : correct_labels (l_size lat) type labels.

  Lemma same_label : forall x x', is_site (l_size lat) x -> is_site (l_size lat) x' -> type x <> 255 -> type x' <> 255 ->
    (labels x = labels x' <-> connected (l_size lat) type x x').
  Proof.
    intros x x' Hx Hx' Hb Hb'. destruct (proj2 (Hc x Hx) Hb) as (y & (Hy1 & Hy2) & Ey).
    destruct (proj2 (Hc x' Hx') Hb') as (y' & (Hy1' & Hy2') & Ey').
    assert (Sy := conn_site _ _ _ _ Hx Hy1).
    assert (Sy' := conn_site _ _ _ _ Hx' Hy1').
    assert (R := index_range _ _ Sy). assert (R' := index_range _ _ Sy').
    assert (T := Htype x Hx). assert (T' := Htype x' Hx').
    split.
    - intros E. rewrite Ey, Ey' in E. unfold label_value in E.
      assert (SiteIndex (l_size lat) y = SiteIndex (l_size lat) y') by nia.
      assert (y = y') by (eapply index_inj; eauto). subst y'.
      eapply conn_trans; eauto. apply (conn_sym lat Hv); auto.
    - intros Hcn. assert (Hcn' := conn_sym lat Hv type _ _ Hcn).
      assert (A := Hy2 y' (conn_trans _ _ _ _ _ Hcn Hy1')). assert (B := Hy2' y (conn_trans _ _ _ _ _ Hcn' Hy1)).
      assert (SiteIndex (l_size lat) y = SiteIndex (l_size lat) y') by lia.
      rewrite Ey, Ey'. unfold label_value. rewrite (conn_type _ _ _ _ Hcn). lia.
  Qed.

  Lemma label_below_background : forall x, is_site (l_size lat) x -> type x <> 255 -> 0 <= labels x < background_label.
  Proof.
    intros x Hx Hb. destruct (proj2 (Hc x Hx) Hb) as (y & (Hy1 & Hy2) & Ey).
    assert (Sy := conn_site _ _ _ _ Hx Hy1).
    assert (R := index_range _ _ Sy). assert (T := Htype x Hx). rewrite Ey. unfold label_value, background_label. nia.
  Qed.

  Lemma label_valid : forall x, is_site (l_size lat) x -> valid_label (labels x).
  Proof.
    intros x Hx. destruct (Z.eq_dec (type x) 255) as [E|E]; [left; apply Hc; auto|].
    destruct (proj2 (Hc x Hx) E) as (y & (Hy1 & Hy2) & Ey).
    assert (Sy := conn_site _ _ _ _ Hx Hy1).
    assert (R := index_range _ _ Sy). assert (T := Htype x Hx). right. exists (type x), (SiteIndex (l_size lat) y).
    split; [lia|]. split; [lia|auto].
  Qed.
End Correct.
