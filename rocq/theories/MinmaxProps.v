(** C21: minimum and maximum of a field. *)
From Coq Require Import Permutation.
From Verif Require Import Common LayoutModel LayoutSpec LayoutProofs2 LayoutProps IoModel IoSpec IoProofs1 IoProps.
From Verif Require Import ReduceModel ReduceSpec ReduceProofs1 ReduceProps ReductionModel ReductionProps.
From Verif Require Import MinmaxModel MinmaxSpec MinmaxProofs1.

(** If some site of the parity has a value beyond the initial value of the search,
    every rank gets the extremal value and the same site where it is attained, for
    every division into ranks, division between threads and order of combination. *)
Theorem C21_minmax : forall lat, valid_lattice lat ->
  forall (is_min : bool) (ty : numtype) p mem (F : list Z -> Z), represents lat mem F ->
  forall loc0 chunks t, thread_shares lat p chunks -> any_order lat t ->
  (exists c : list Z, is_site (l_size lat) c /\ has_parity p c /\
     if is_min then F c < limit_max ty else limit_min ty < F c) ->
  exists v c, extremum is_min (l_size lat) p F v c /\
    forall r, is_rank lat r -> minmax lat is_min ty mem loc0 chunks t r = (v, c).
Proof.
  intros lat Hv is_min ty p mem F Hrep loc0 chunks t Hc Ht (c & S & P & B).
  apply (minmax_found lat Hv is_min ty p mem F loc0 chunks t Hrep Hc Ht). exists c. split; auto. split; auto.
  unfold better, initial_value. destruct is_min; cbn [andb orb negb]; [rewrite orb_false_r|]; apply Z.ltb_lt; auto.
Qed.
Print Assumptions C21_minmax.

(** The value is right for every minimum, and for every maximum of an integer field. *)
Theorem C21_value : forall lat, valid_lattice lat ->
  forall (is_min : bool) (ty : numtype) p mem (F : list Z -> Z), represents lat mem F ->
  forall loc0 chunks t, thread_shares lat p chunks -> any_order lat t ->
  is_min = true \/ is_integer ty = true ->
  (forall c, is_site (l_size lat) c -> in_type ty (F c)) ->
  (exists c, is_site (l_size lat) c /\ has_parity p c) ->
  exists v c, extremum is_min (l_size lat) p F v c /\
    forall r, is_rank lat r -> fst (minmax lat is_min ty mem loc0 chunks t r) = v.
Proof.
  intros lat Hv is_min ty p mem F Hrep loc0 chunks t Hc Ht Hty Hin (c & S & P).
  destruct (sites_enumerated lat p Hv) as (sites & _ & Hs).
  destruct (existsb (fun c => better is_min (F c) (initial_value is_min ty)) sites) eqn:E.
  - apply existsb_exists in E. destruct E as (c1 & I1 & B1). apply Hs in I1.
    destruct (minmax_found lat Hv is_min ty p mem F loc0 chunks t Hrep Hc Ht) as (v & c2 & H1 & H2).
    { exists c1. tauto. }
    exists v, c2. split; auto. intros r Hr. rewrite H2 by auto. auto.
  - assert (Hn : forall c, is_site (l_size lat) c -> has_parity p c -> better is_min (F c) (initial_value is_min ty) = false).
    { intros c1 S1 P1. destruct (better is_min (F c1) (initial_value is_min ty)) eqn:E1; auto.
      rewrite <- E. symmetry. apply existsb_exists. exists c1. split; auto. apply Hs. auto. }
    assert (He : forall c, is_site (l_size lat) c -> has_parity p c -> F c = initial_value is_min ty).
    { intros c1 S1 P1. assert (H1 := proj1 (better_not _ _ _) (Hn c1 S1 P1)). assert (H2 := Hin c1 S1).
      unfold in_type, lowest in H2. unfold initial_value in *. destruct is_min; [lia|].
      destruct Hty as [Hty|Hty]; [discriminate|]. rewrite Hty in H2. lia. }
    exists (F c), c. split.
    + split; auto. split; auto. split; auto. intros c' S' P'. rewrite !He by auto. destruct is_min; lia.
    + intros r Hr. rewrite (minmax_none lat Hv is_min ty p mem F loc0 chunks t Hrep Hc Ht Hn r Hr). cbn [fst].
      symmetry. auto.
Qed.
Print Assumptions C21_value.

(** If no site has a value beyond the initial value, all ranks return that initial
    value, and as location whatever the caller's variable held on rank 0. *)
Theorem C21_nothing_beyond_the_initial_value : forall lat, valid_lattice lat ->
  forall (is_min : bool) (ty : numtype) p mem (F : list Z -> Z), represents lat mem F ->
  forall loc0 chunks t, thread_shares lat p chunks -> any_order lat t ->
  (forall c, is_site (l_size lat) c -> has_parity p c -> if is_min then limit_max ty <= F c else F c <= limit_min ty) ->
  forall r, is_rank lat r ->
    minmax lat is_min ty mem loc0 chunks t r = (if is_min then limit_max ty else limit_min ty, loc0 0).
Proof.
  intros lat Hv is_min ty p mem F Hrep loc0 chunks t Hc Ht H r Hr.
  apply (minmax_none lat Hv is_min ty p mem F loc0 chunks t Hrep Hc Ht); auto.
  intros c S P. apply better_not. assert (H1 := H c S P). unfold initial_value. destruct is_min; auto.
Qed.
Print Assumptions C21_nothing_beyond_the_initial_value.

(** Two threads on each rank. *)
Definition ex_chunks (lat : lattice) (p : parity) (r : Z) : list (list Z) :=
  let l := loop_indices (nodeinfo lat r) p in
  [skipn (Nat.div (length l) 2) l; firstn (Nat.div (length l) 2) l].
Lemma ex_chunks_ok : forall lat p, thread_shares lat p (ex_chunks lat p).
Proof.
  intros lat p r _. unfold ex_chunks. cbn [concat]. rewrite app_nil_r, Permutation_app_comm, firstn_skipn. auto.
Qed.
Lemma ex_order_ok : forall lat, valid_lattice lat -> 0 < number_of_nodes lat -> any_order lat (ex_order lat).
Proof.
  intros lat _ Hn. unfold any_order, ex_order. rewrite left_tree_leaves.
  replace (Z.to_nat (number_of_nodes lat)) with (S (Z.to_nat (number_of_nodes lat) - 1)) at 2 by lia.
  cbn [zrange]. replace (0 + 1) with 1 by lia. apply Permutation_refl.
Qed.

(** A double field with the values -1.0 (in multiples of 2^-1074) on all sites: the
    maximum is not the returned value, which is the smallest positive number, and
    the returned location is the caller's old value, not a site. *)
Theorem C21_negative_maximum_refuted :
  let F := fun _ : list Z => - 2 ^ 1074 in
  valid_lattice ex_lat2 /\ represents ex_lat2 (fun _ _ => - 2 ^ 1074) F /\
  thread_shares ex_lat2 ALL (ex_chunks ex_lat2 ALL) /\ any_order ex_lat2 (ex_order ex_lat2) /\
  (forall c, in_type TDouble (F c)) /\
  extremum false (l_size ex_lat2) ALL F (- 2 ^ 1074) [1] /\
  (forall r, is_rank ex_lat2 r ->
     minmax ex_lat2 false TDouble (fun _ _ => - 2 ^ 1074) (fun _ => [77]) (ex_chunks ex_lat2 ALL) (ex_order ex_lat2) r = (2 ^ 52, [77])).
Proof.
  intros F. split; [apply ex_lat2_valid|]. split; [intros r c _ _; reflexivity|]. split; [apply ex_chunks_ok|].
  split; [apply ex_order_ok; [apply ex_lat2_valid|reflexivity]|].
  split. { intros c. unfold F, in_type, lowest. cbn [is_integer limit_max]. split.
    - apply Z.leb_le. vm_compute. reflexivity.
    - apply Z.leb_le. vm_compute. reflexivity. }
  split. { split. { split; [reflexivity|]. intros [|j] Hj; cbn in *; lia. } split; [exact I|]. split; [reflexivity|].
    intros c' _ _. unfold F. lia. }
  intros r Hr. apply (C21_nothing_beyond_the_initial_value ex_lat2 ex_lat2_valid false TDouble ALL (fun _ _ => - 2 ^ 1074) F); auto.
  - intros r' c _ _; reflexivity.
  - apply ex_chunks_ok.
  - apply ex_order_ok; [apply ex_lat2_valid|reflexivity].
  - intros c _ _. unfold F. apply Z.leb_le. vm_compute. reflexivity.
Qed.
Print Assumptions C21_negative_maximum_refuted.

(** The minimum of an int field with the largest int everywhere: right value, but no
    site is reported. *)
Theorem C21_location_of_the_limit_refuted : forall r, is_rank ex_lat2 r ->
  minmax ex_lat2 true TInt (fun _ _ => 2147483647) (fun _ => [77]) (ex_chunks ex_lat2 ALL) (ex_order ex_lat2) r = (2147483647, [77]) /\
  ~ is_site (l_size ex_lat2) [77].
Proof.
  intros r Hr. split.
  - apply (C21_nothing_beyond_the_initial_value ex_lat2 ex_lat2_valid true TInt ALL (fun _ _ => 2147483647) (fun _ => 2147483647)); auto.
    + intros r' c _ _; reflexivity.
    + apply ex_chunks_ok.
    + apply ex_order_ok; [apply ex_lat2_valid|reflexivity].
    + intros c _ _. apply Z.leb_le. vm_compute. reflexivity.
  - intros [_ H]. specialize (H 0%nat). cbn in H. lia.
Qed.
Print Assumptions C21_location_of_the_limit_refuted.

(** On six ranks with two threads each, the maximum 31 of 10 x + y - 12 (x < 5, y < 4)
    is found at (4, 3), its minimum -12 at (0, 0), both also by parity. *)
Example C21_example :
  let F := fun c : list Z => 10 * nth 0 c 0 + nth 1 c 0 - 12 in
  let mem := fun r i => F (coordinates (nodeinfo ex_lat r) i) in
  let run is_min p := map (minmax ex_lat is_min TInt mem (fun _ => []) (ex_chunks ex_lat p) (ex_order ex_lat)) (zrange 0 6) in
  valid_lattice ex_lat /\ represents ex_lat mem F /\ any_order ex_lat (ex_order ex_lat) /\
  run false ALL = repeat (31, [4; 3]) 6 /\ run true ALL = repeat (-12, [0; 0]) 6 /\
  run false EVEN = repeat (30, [4; 2]) 6 /\ run true ODD = repeat (-11, [0; 1]) 6.
Proof.
  intros F mem run. split; [apply ex_lat_valid|]. split.
  { intros r c Hr Hc. unfold mem. rewrite (proj1 (coordinates_inverse ex_lat r ex_lat_valid Hr)); auto. }
  split; [apply ex_order_ok; [apply ex_lat_valid|reflexivity]|].
  repeat split; vm_compute; reflexivity.
Qed.
