(** Properties C25, C26, C27, C52, C53: clusters. *)
From Coq Require Import Sorted.
From Verif Require Import Common LayoutModel LayoutSpec LayoutProofs2 IoSpec IoProofs1 ReduceSpec ReduceProofs1.
From Verif Require Import SelectModel SelectProofs1 ClusterModel ClusterSpec ClusterProofs1 ClusterProofs2 ClusterProofs3.

(** ** C27: the encoding *)
Theorem C27_encoding : forall ls, zprod ls <= 2 ^ 54 ->
  (forall c t, is_site ls c -> 0 <= t < 255 ->
     get_cl_label_type (set_cl_label ls c t) = t /\ set_cl_label ls c t mod 2 ^ 54 = SiteIndex ls c /\
     0 <= set_cl_label ls c t < set_cl_label ls c 255) /\
  (forall c c' t t', is_site ls c -> is_site ls c' -> 0 <= t < 255 -> 0 <= t' < 255 ->
     set_cl_label ls c t = set_cl_label ls c' t' -> c = c' /\ t = t') /\
  (forall c c', set_cl_label ls c 255 = set_cl_label ls c' 255 /\ get_cl_label_type (set_cl_label ls c 255) = 255).
Proof.
  intros ls Hz. split; [|split].
  - intros c t Hc Ht. rewrite set_label_value by auto. assert (R := index_range _ _ Hc). split; [apply type_label; auto|].
    unfold label_value. split.
    + symmetry. apply (Z.mod_unique _ _ t); lia.
    + rewrite set_label_background. unfold background_label. lia.
  - intros c c' t t' Hc Hc' Ht Ht' E. rewrite !set_label_value in E by auto. unfold label_value in E.
    assert (R := index_range _ _ Hc). assert (R' := index_range _ _ Hc'). split; [|nia].
    apply (index_inj ls); auto. nia.
  - intros. split; reflexivity.
Qed.
Print Assumptions C27_encoding.

Example C27_example : zprod [8; 6; 4] <= 2 ^ 54 /\ is_site [8; 6; 4] [7; 5; 2] /\
  set_cl_label [8; 6; 4] [7; 5; 2] 3 = 3 * 2 ^ 54 + (7 + 8 * (5 + 6 * 2)).
Proof.
  split; [vm_compute; discriminate|]. split; [|reflexivity]. split; [reflexivity|].
  intros [|[|[|j]]] Hj; cbn in *; lia.
Qed.

(** Outside of the documented range of types the encoding fails: type 256 has the
    type bits of 0. *)
Theorem C27_type_out_of_range_refuted :
  exists c t, is_site [4] c /\ 255 < t /\ get_cl_label_type (set_cl_label [4] c t) = 0 /\
    get_cl_label_type (set_cl_label [4] c t) <> t.
Proof.
  exists [1], 256. split; [split; [reflexivity|intros [|j] Hj; cbn in *; lia]|]. vm_compute. repeat split; congruence.
Qed.
Print Assumptions C27_type_out_of_range_refuted.

(** ** C25: the labels *)
Definition some_sites (ls : list Z) (p : parity) : list (list Z) :=
  filter (fun c => match p with EVEN => zsum c mod 2 =? 0 | ODD => negb (zsum c mod 2 =? 0) | ALL => true end)
         (sites_in_file_order ls).

Lemma some_sites_enumerate : forall ls p, enumerates ls p (some_sites ls p).
Proof.
  intros ls p. split.
  - apply NoDup_filter. apply sites_NoDup.
  - intros c. unfold some_sites. rewrite filter_In, sites_In. unfold has_parity, site_even.
    destruct p; [rewrite Z.eqb_eq|rewrite negb_true_iff, Z.eqb_neq|]; tauto.
Qed.

(** For every order of the sites in every round (any distribution of the sites on
    ranks) and every choice of reads of current values or of values from the start
    of the loop: the search ends, and the labels are right whenever it has ended. *)
Theorem C25_labels : forall lat type rounds, valid_lattice lat -> zprod (l_size lat) <= 2 ^ 54 ->
  (forall x, is_site (l_size lat) x -> 0 <= type x <= 255) ->
  (forall k, complete_round (l_size lat) (rounds k)) ->
  (exists fuel labels, make_labels fuel lat rounds type = Some labels) /\
  forall fuel labels, make_labels fuel lat rounds type = Some labels ->
    correct_labels (l_size lat) type labels.
Proof.
  intros lat type rounds Hv Hz Ht Hr. assert (HI := Inv_init lat type Hz Ht).
  assert (Hs := some_sites_enumerate (l_size lat) ALL). split.
  - exists (S (Z.to_nat (sum_labels (some_sites (l_size lat) ALL) (fun c => set_cl_label (l_size lat) c (type c))))).
    apply (loop_terminates lat Hv type Hz Ht _ Hs rounds Hr); auto. lia.
  - intros fuel labels E. destruct (loop_result lat Hv type Hz Ht _ Hs rounds Hr _ _ _ _ HI E) as [H1 H2].
    apply (stable_correct lat Hv type); auto.
Qed.
Print Assumptions C25_labels.

(** Same label exactly when connected; the background differs from all. *)
Theorem C25_components : forall lat type labels, valid_lattice lat -> zprod (l_size lat) <= 2 ^ 54 ->
  (forall x, is_site (l_size lat) x -> 0 <= type x <= 255) -> correct_labels (l_size lat) type labels ->
  forall x y, is_site (l_size lat) x -> is_site (l_size lat) y ->
    (type x = 255 -> labels x = background_label) /\
    (type x <> 255 -> labels x <> background_label /\ get_cl_label_type (labels x) = type x) /\
    (type x <> 255 -> (labels x = labels y <-> connected (l_size lat) type x y)).
Proof.
  intros lat type labels Hv Hz Ht Hc x y Hx Hy. split; [apply (Hc x Hx)|]. split.
  - intros Hb. assert (A := label_below_background lat type Hz Ht labels Hc x Hx Hb). split; [lia|].
    destruct (proj2 (Hc x Hx) Hb) as (z & (Hz1 & _) & ->). assert (B := Ht x Hx).
    apply type_label; [auto|apply (conn_site _ _ _ _ Hx Hz1)|lia].
  - intros Hb. destruct (Z.eq_dec (type y) 255) as [E|E].
    + rewrite (proj1 (Hc y Hy) E). assert (A := label_below_background lat type Hz Ht labels Hc x Hx Hb). split; [lia|].
      intros Hcn. apply conn_type in Hcn. congruence.
    + apply (same_label lat Hv type Hz Ht labels Hc); auto.
Qed.
Print Assumptions C25_components.

(** A concrete case: a 4 x 2 lattice, type 1 on the line y = 0 except x = 2 which
    is background, type 0 on the line y = 1 except [0; 1] of type 1. *)
Definition ex_cl_lat : lattice := mkLattice [4; 2] [2; 1] (fun i => i) (fun i => i).
Definition ex_type (c : list Z) : Z :=
  match c with [2; 0] => 255 | [_; 0] => 1 | [0; 1] => 1 | _ => 0 end.
Definition ex_round : round :=
  mkRound (some_sites [4; 2] EVEN) (rev (some_sites [4; 2] ODD)) (fun _ _ => true) (fun _ d => d =? 0).
Example C25_example :
  valid_lattice ex_cl_lat /\ zprod (l_size ex_cl_lat) <= 2 ^ 54 /\
  (forall x, is_site (l_size ex_cl_lat) x -> 0 <= ex_type x <= 255) /\
  (forall k : nat, complete_round (l_size ex_cl_lat) ((fun _ => ex_round) k)) /\
  match make_labels 10 ex_cl_lat (fun _ => ex_round) ex_type with
  | Some labels => map labels (sites_in_file_order [4; 2]) =
      [2 ^ 54; 2 ^ 54; 255 * 2 ^ 54; 2 ^ 54; 2 ^ 54; 5; 5; 5]
  | None => False
  end.
Proof.
  split; [|split; [vm_compute; discriminate|split; [|split]]].
  - split; [reflexivity|]. split; [repeat constructor; lia|]. split; [repeat constructor; lia|]. split; intros i Hi; split; auto.
  - intros [|a [|b [|c x]]] [Hl H]; try discriminate. assert (H0 := H 0%nat). assert (H1 := H 1%nat). cbn in H0, H1.
    assert (Ha : a = 0 \/ a = 1 \/ a = 2 \/ a = 3) by lia. assert (Hb : b = 0 \/ b = 1) by lia.
    destruct Ha as [->|[->|[->| ->]]], Hb as [->| ->]; cbn; lia.
  - intros _. split; [apply some_sites_enumerate|]. destruct (some_sites_enumerate [4; 2] ODD) as [H1 H2]. split.
    + apply NoDup_rev. auto.
    + intros c. cbn [odd_order ex_round]. rewrite <- in_rev. apply H2.
  - vm_compute. reflexivity.
Qed.

(** ** C26: the list of clusters *)

(** For any number of ranks and any labels on the ranks (also none). *)
Theorem C26_list : forall nn (bufs : Z -> list Z) fuel, 0 < nn -> nn <= Z.of_nat fuel ->
  (forall r, 0 <= r < nn -> Forall valid_label (bufs r)) ->
  exists res, classify fuel nn bufs = Some (fun _ => res) /\
    cluster_list (concat (map bufs (zrange 0 (Z.to_nat nn)))) res.
Proof.
  intros nn bufs fuel Hn Hf Hb. destruct (classify_ok nn bufs Hn Hb fuel Hf) as (res & E & H). exists res. split; auto.
  unfold span in H. rewrite Z.sub_0_r in H. auto.
Qed.
Print Assumptions C26_list.

(** With the labels of make_labels in the memory of the ranks: every cluster is in
    the list once, with its number of sites, and nothing else is. *)
Theorem C26_clusters : forall lat type labels st fuel, valid_lattice lat -> zprod (l_size lat) <= 2 ^ 54 ->
  (forall x, is_site (l_size lat) x -> 0 <= type x <= 255) -> correct_labels (l_size lat) type labels ->
  represents lat st labels -> number_of_nodes lat <= Z.of_nat fuel ->
  exists res, classify fuel (number_of_nodes lat) (buffer lat st) = Some (fun _ => res) /\
    StronglySorted (fun a b => fst a < fst b) res /\
    (forall l n, In (l, n) res -> exists x, is_site (l_size lat) x /\ type x <> 255 /\ labels x = l) /\
    (forall x, is_site (l_size lat) x -> type x <> 255 ->
       exists n, In (labels x, n) res /\
         exists members, n = Z.of_nat (length members) /\ NoDup members /\
           forall y, In y members <-> connected (l_size lat) type x y).
Proof.
  intros lat type labels st fuel Hv Hz Ht Hc Hst Hf.
  assert (Hs := some_sites_enumerate (l_size lat) ALL). set (sites := some_sites (l_size lat) ALL) in *.
  assert (Hnn : 0 < number_of_nodes lat) by (unfold number_of_nodes; apply zprod_pos, Hv).
  assert (Hsite : forall x, In x sites <-> is_site (l_size lat) x).
  { intros x. destruct Hs as [_ H]. rewrite H. cbn. tauto. }
  assert (Hb : forall r, 0 <= r < number_of_nodes lat -> Forall valid_label (buffer lat st r)).
  { intros r Hr. rewrite (buffer_labels lat Hv st labels r Hst Hr). apply Forall_forall. intros l Hl.
    apply in_map_iff in Hl. destruct Hl as (x & <- & Hx). apply (label_valid lat type Hz Ht labels Hc).
    apply (loop_visits lat r ALL Hv Hr) in Hx. apply (holds_is_site lat r x Hv Hr), Hx. }
  destruct (classify_ok _ _ Hnn Hb fuel Hf) as (res & E & Hsort & Hin). exists res. split; auto. split; auto.
  assert (Hp := span_perm lat Hv st labels sites Hst Hs). split.
  - intros l n Hl. apply Hin in Hl. destruct Hl as (H1 & H2 & H3).
    apply (Permutation_in _ Hp) in H1. apply in_map_iff in H1. destruct H1 as (x & <- & Hx). exists x.
    apply Hsite in Hx. split; auto. split; auto. intros Eb. apply H2. apply (Hc x Hx); auto.
  - intros x Hx Hb'. exists (Z.of_nat (length (filter (fun y => labels y =? labels x) sites))). split.
    + apply Hin. split; [|split].
      * apply (Permutation_in _ (Permutation_sym Hp)). apply in_map. apply Hsite; auto.
      * assert (A := label_below_background lat type Hz Ht labels Hc x Hx Hb'). lia.
      * f_equal. rewrite (count_perm _ _ _ Hp). symmetry. apply count_labels.
    + eexists. split; [reflexivity|]. split; [apply NoDup_filter; apply Hs|].
      intros y. rewrite filter_In, Hsite, Z.eqb_eq. split.
      * intros [Hy El]. destruct (C25_components lat type labels Hv Hz Ht Hc x y Hx Hy) as (_ & _ & H). apply H; auto.
      * intros Hcn. assert (Hy := conn_site _ _ _ _ Hx Hcn). split; auto.
        destruct (C25_components lat type labels Hv Hz Ht Hc x y Hx Hy) as (_ & _ & H). symmetry. apply H; auto.
Qed.
Print Assumptions C26_clusters.

(** Five ranks, one of them without sites. *)
Example C26_example :
  let bufs := fun r => if r =? 0 then [7; 3; 7] else if r =? 1 then [255 * 2 ^ 54; 7] else if r =? 2 then [] else
                       if r =? 3 then [9; 3] else [2 ^ 54 + 1; 9; 2 ^ 54 + 1] in
  (forall r, 0 <= r < 5 -> Forall valid_label (bufs r)) /\
  match classify 5 5 bufs with
  | Some res => res 0 = [(3, 2); (7, 3); (9, 2); (2 ^ 54 + 1, 2)] /\ res 4 = res 0
  | None => False
  end.
Proof.
  cbv zeta. split; [|vm_compute; auto].
  intros r Hr. assert (H : r = 0 \/ r = 1 \/ r = 2 \/ r = 3 \/ r = 4) by lia.
  assert (V : forall i, 0 <= i < 2 ^ 54 -> valid_label i).
  { intros i Hi. right. exists 0, i. split; [lia|]. split; auto. }
  assert (V1 : valid_label (2 ^ 54 + 1)).
  { right. exists 1, 1. split; [lia|]. split; [lia|reflexivity]. }
  destruct H as [->|[->|[->|[->| ->]]]]; cbn [Z.eqb Pos.eqb]; repeat first [apply Forall_cons | apply Forall_nil]; first [exact V1 | apply V; lia | left; reflexivity].
Qed.

(** ** C52: the surface area *)
Theorem C52_area : forall lat labels lbl sites, valid_lattice lat -> enumerates (l_size lat) ALL sites ->
  area lat labels sites lbl = Z.of_nat (length (surface_links lat (fun x => labels x =? lbl) sites)).
Proof. intros. apply area_surface; auto. Qed.
Print Assumptions C52_area.

Example C52_example :
  enumerates (l_size ex_cl_lat) ALL (some_sites [4; 2] ALL) /\
  area ex_cl_lat (fun c => if nth 0 c 0 =? 1 then 7 else 8) (some_sites [4; 2] ALL) 7 = 4.
Proof. split; [apply some_sites_enumerate|vm_compute; reflexivity]. Qed.

(** ** C53: clusters from links *)
Theorem C53_links : forall lat link labels, valid_lattice lat -> zprod (l_size lat) <= 2 ^ 54 ->
  correct_labels (l_size lat) (link_type lat link) labels ->
  (forall x, is_site (l_size lat) x -> (labels x = background_label <-> ~ exists y, linked (l_size lat) link x y)) /\
  (forall x y, is_site (l_size lat) x -> link_connected (l_size lat) link x y -> labels x = labels y).
Proof.
  intros lat link labels Hv Hz Hc. assert (Ht := fun x (_ : is_site (l_size lat) x) => link_type_range lat link x). split.
  - intros x Hx. destruct (link_types lat Hv link x Hx) as [T1 T2].
    destruct (C25_components lat _ labels Hv Hz Ht Hc x x Hx Hx) as (B1 & B2 & _). split.
    + intros E He. apply T1 in He. destruct B2 as [B2 _]; [lia|]. auto.
    + intros Hn. apply B1. destruct T2 as [T2|T2]; auto. exfalso. apply Hn, T1; auto.
  - intros x y Hx Hl. assert (Hcn := link_connected_connected lat Hv link x y Hl).
    assert (Hy := conn_site _ _ _ _ Hx Hcn). destruct (C25_components lat _ labels Hv Hz Ht Hc x y Hx Hy) as (B1 & _ & B3).
    destruct (link_types lat Hv link x Hx) as [_ [T|T]]; [apply B3; auto; lia|].
    rewrite B1 by auto. assert (T' := conn_type _ _ _ _ Hcn). symmetry. apply (Hc y Hy). congruence.
Qed.
Print Assumptions C53_links.

(** Links 0-1 and 2-3 on a line of 4 sites: all four sites get the same label,
    although no link joins the pairs. *)
Definition ex_line : lattice := mkLattice [4] [1] (fun i => i) (fun i => i).
Definition ex_link (d : Z) (c : list Z) : Z := match c with [0] => 1 | [2] => 1 | _ => 0 end.

Lemma ex_not_linked : forall y, link_connected [4] ex_link [0] y -> y = [0] \/ y = [1].
Proof.
  intros y H. induction H as [|y z _ IH H]; [auto|]. destruct H as (Hy & Hz & d & Hd & H). cbn in Hd.
  assert (d = 0) by lia. subst d. destruct Hz as [Lz Hz]. assert (Hz0 := Hz 0%nat). destruct z as [|a [|b z]]; try discriminate.
  cbn in Hz0. destruct H as [[(_ & _ & Hp) Hl]|[(_ & _ & Hp) Hl]].
  - assert (Hp0 := Hp 0%nat). cbn in Hp0. destruct IH as [-> | ->]; cbn in Hp0, Hl.
    + right. f_equal. rewrite Hp0 by lia. reflexivity.
    + congruence.
  - assert (Hp0 := Hp 0%nat). unfold displacement in Hp0. cbn in Hp0.
    assert (Ha : a = 0 \/ a = 1 \/ a = 2 \/ a = 3) by lia.
    destruct IH as [-> | ->]; cbn in Hp0; destruct Ha as [->|[->|[->| ->]]]; cbn in Hl; try congruence; auto;
      specialize (Hp0 ltac:(lia)); vm_compute in Hp0; discriminate.
Qed.

Theorem C53_no_links_between_refuted :
  exists labels, correct_labels (l_size ex_line) (link_type ex_line ex_link) labels /\
    make_labels 5 ex_line (fun _ => mkRound [[0]; [2]] [[1]; [3]] (fun _ _ => true) (fun _ _ => true)) (link_type ex_line ex_link) = Some labels /\
    labels [0] = labels [2] /\ labels [0] <> background_label /\ ~ link_connected (l_size ex_line) ex_link [0] [2].
Proof.
  assert (Hv : valid_lattice ex_line).
  { split; [reflexivity|]. split; [repeat constructor; lia|]. split; [repeat constructor; lia|]. split; intros i Hi; split; auto. }
  set (rd := mkRound [[0]; [2]] [[1]; [3]] (fun _ _ => true) (fun _ _ => true)).
  assert (Hr : forall k : nat, complete_round (l_size ex_line) ((fun _ => rd) k)).
  { intros _. assert (E : even_order rd = some_sites [4] EVEN /\ odd_order rd = some_sites [4] ODD) by (vm_compute; auto).
    destruct E as [E1 E2]. split; [rewrite E1|rewrite E2]; apply some_sites_enumerate. }
  assert (Hz : zprod (l_size ex_line) <= 2 ^ 54) by (vm_compute; discriminate).
  destruct (C25_labels ex_line (link_type ex_line ex_link) (fun _ => rd) Hv Hz (fun x _ => link_type_range ex_line ex_link x) Hr) as [_ Hc].
  assert (F : match make_labels 5 ex_line (fun _ => rd) (link_type ex_line ex_link) with
    | Some labels => labels [0] = labels [2] /\ labels [0] = 2 ^ 54 | None => False end) by (vm_compute; auto).
  destruct (make_labels 5 ex_line (fun _ => rd) (link_type ex_line ex_link)) as [labels|] eqn:E; [|contradiction].
  exists labels. split; [eapply Hc; eauto|]. split; [auto|].
  destruct F as [F1 F2]. split; [auto|]. split; [rewrite F2; vm_compute; discriminate|].
  intros H. destruct (ex_not_linked _ H); discriminate.
Qed.
Print Assumptions C53_no_links_between_refuted.
