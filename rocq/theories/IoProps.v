(** C15, C16: field files.  Statements. *)
From Verif Require Import Common LayoutModel LayoutSpec LayoutProps.
From Verif Require Import ElementModel ElementProps IoModel IoSpec IoProofs1 IoProofs2.

(** C15.  Whatever the division of the lattice into ranks and the buffer size, the
    file holds the elements in the global order, first coordinate fastest. *)
Theorem C15_file_contents : forall (V B : Type) (ser : V -> list B) lat spw (st : rank_store V) F fuel,
  valid_lattice lat -> represents lat st F -> 1 <= spw -> zprod (l_size lat) < Z.of_nat fuel ->
  field_write ser fuel lat spw st = Done (file_of ser (l_size lat) F).
Proof. intros V B ser lat spw st F fuel Hv HF Hs Hf. exact (write_ok ser lat Hv spw st F fuel Hs HF Hf). Qed.
Print Assumptions C15_file_contents.

(** C15.  Two divisions, two buffer sizes: the same bytes. *)
Theorem C15_independent_of_ranks_and_buffer : forall (V B : Type) (ser : V -> list B) lat1 lat2 spw1 spw2
    (st1 st2 : rank_store V) F fuel,
  valid_lattice lat1 -> valid_lattice lat2 -> l_size lat1 = l_size lat2 ->
  represents lat1 st1 F -> represents lat2 st2 F -> 1 <= spw1 -> 1 <= spw2 ->
  zprod (l_size lat1) < Z.of_nat fuel ->
  field_write ser fuel lat1 spw1 st1 = field_write ser fuel lat2 spw2 st2 /\
  exists bytes, field_write ser fuel lat1 spw1 st1 = Done bytes.
Proof.
  intros V B ser lat1 lat2 spw1 spw2 st1 st2 F fuel V1 V2 El R1 R2 H1 H2 Hf.
  rewrite (write_ok ser lat1 V1 spw1 st1 F) by auto.
  rewrite (write_ok ser lat2 V2 spw2 st2 F) by (try rewrite <- El; auto). rewrite El. eauto.
Qed.
Print Assumptions C15_independent_of_ranks_and_buffer.

(** C15.  A file written on one division and read on another restores every site;
    anything that follows in the file is left for the next read. *)
Theorem C15_round_trip : forall (V B : Type) (ser : V -> list B) deser sz lat1 lat2 spw spr
    (st1 st2 : rank_store V) F fuel rest,
  codec ser deser sz ->
  valid_lattice lat1 -> valid_lattice lat2 -> l_size lat1 = l_size lat2 ->
  represents lat1 st1 F -> 1 <= spw -> 1 <= spr -> zprod (l_size lat1) < Z.of_nat fuel ->
  exists bytes st',
    field_write ser fuel lat1 spw st1 = Done bytes /\
    field_read deser sz fuel lat2 spr (bytes ++ rest) st2 = Done (st', rest) /\
    represents lat2 st' F.
Proof.
  intros V B ser deser sz lat1 lat2 spw spr st1 st2 F fuel rest Hc V1 V2 El R1 H1 H2 Hf.
  rewrite (write_ok ser lat1 V1 spw st1 F) by auto. rewrite El in *.
  destruct (read_ok ser deser sz lat2 V2 Hc spr fuel st2 F rest H2 Hf) as (st' & A & R).
  exists (file_of ser (l_size lat2) F), st'. auto.
Qed.
Print Assumptions C15_round_trip.

(** C15.  Several fields in one file. *)
Theorem C15_round_trip_of_several_fields : forall (V B : Type) (ser : V -> list B) deser sz lat1 lat2 spw spr
    (sts1 sts2 : list (rank_store V)) Fs fuel,
  codec ser deser sz ->
  valid_lattice lat1 -> valid_lattice lat2 -> l_size lat1 = l_size lat2 ->
  Forall2 (represents lat1) sts1 Fs -> length sts2 = length sts1 ->
  1 <= spw -> 1 <= spr -> zprod (l_size lat1) < Z.of_nat fuel ->
  exists bytes sts',
    write_fields ser fuel lat1 spw sts1 = Done bytes /\
    read_fields deser sz fuel lat2 spr bytes sts2 = Done (sts', []) /\
    Forall2 (represents lat2) sts' Fs.
Proof.
  intros V B ser deser sz lat1 lat2 spw spr sts1 sts2 Fs fuel Hc V1 V2 El R Hl H1 H2 Hf.
  revert sts2 Hl. induction R as [|st F sts Fs HR R IH]; intros [|st2 sts2] Hl; cbn in Hl; try lia.
  - exists [], []. auto.
  - destruct (IH sts2 ltac:(lia)) as (bytes & sts' & A & A2 & A3).
    destruct (C15_round_trip V B ser deser sz lat1 lat2 spw spr st st2 F fuel bytes Hc V1 V2 El HR H1 H2 Hf)
      as (b1 & st' & B1 & B2 & B3).
    exists (b1 ++ bytes), (st' :: sts'). cbn [write_fields read_fields]. rewrite B1, A, B2, A2. auto.
Qed.
Print Assumptions C15_round_trip_of_several_fields.

(** A truncated file is never accepted. *)
Theorem C15_truncated_file_is_noticed : forall (V B : Type) (ser : V -> list B) deser sz lat spr
    (st : rank_store V) bytes fuel,
  codec ser deser sz -> valid_lattice lat -> 1 <= spr -> zprod (l_size lat) < Z.of_nat fuel ->
  Z.of_nat (length bytes) < zprod (l_size lat) * sz ->
  field_read deser sz fuel lat spr bytes st = ShortFile.
Proof.
  intros V B ser deser sz lat spr st bytes fuel Hc Hv Hs Hf Hb.
  assert (0 < zprod (l_size lat)) by (apply zprod_pos, valid_sizes; auto).
  eapply (read_loop_short ser deser sz lat Hv Hc spr Hs fuel 0 st); try lia. apply some_field; auto.
Qed.
Print Assumptions C15_truncated_file_is_noticed.

(** If one element is larger than the write buffer, so that WRITE_BUFFER_SIZE /
    sizeof(T) is 0, [write] never ends. *)
Theorem C15_element_larger_than_buffer_refuted : forall (V B : Type) (ser : V -> list B) lat (st : rank_store V) fuel,
  valid_lattice lat -> field_write ser fuel lat 0 st = NoFuel.
Proof.
  intros V B ser lat st fuel Hv.
  exact (write_never ser lat Hv st _ fuel (some_field V lat st Hv)).
Qed.
Print Assumptions C15_element_larger_than_buffer_refuted.

Definition ex_lat1 : lattice := mkLattice [5; 4] [1; 1] (fun x => x) (fun x => x).
Lemma ex_lat1_valid : valid_lattice ex_lat1.
Proof.
  split; [reflexivity|]. split; [repeat constructor|]. split; [repeat constructor|].
  split; intros i Hi; split; auto.
Qed.

Definition ex_ser (x : Z) : list Z := [x mod 10; x / 10].
Definition ex_deser (l : list Z) : Z := nth 0 l 0 + 10 * nth 1 l 0.
Lemma ex_codec : codec ex_ser ex_deser 2.
Proof.
  split; [lia|]. intros v. split; [|reflexivity]. unfold ex_deser, ex_ser. cbn [nth].
  assert (H := Z.div_mod v 10 ltac:(lia)). lia.
Qed.

Definition ex_field (c : list Z) : Z := 10 * nth 0 c 0 + nth 1 c 0.
Definition ex_store (lat : lattice) : rank_store Z := fun r i => ex_field (coordinates (nodeinfo lat r) i).
Lemma ex_store_field : forall lat, valid_lattice lat -> represents lat (ex_store lat) ex_field.
Proof.
  intros lat Hv r c Hr Hc. unfold ex_store.
  destruct (LayoutProofs2.coordinates_inverse lat r Hv Hr) as [H _]. rewrite H; auto.
Qed.

Example C15_example :
  valid_lattice ex_lat /\ valid_lattice ex_lat1 /\ l_size ex_lat = l_size ex_lat1 /\
  represents ex_lat (ex_store ex_lat) ex_field /\ codec ex_ser ex_deser 2 /\
  zprod (l_size ex_lat) < Z.of_nat 21 /\
  field_write ex_ser 21 ex_lat 3 (ex_store ex_lat) = field_write ex_ser 21 ex_lat1 7 (ex_store ex_lat1) /\
  match field_write ex_ser 21 ex_lat 3 (ex_store ex_lat) with
  | Done b => firstn 6 b = [0; 0; 0; 1; 0; 2] /\ length b = 40%nat
  | _ => False
  end.
Proof.
  split; [exact ex_lat_valid|]. split; [exact ex_lat1_valid|]. split; [reflexivity|].
  split; [exact (ex_store_field _ ex_lat_valid)|]. split; [exact ex_codec|].
  split; [vm_compute; auto|]. split; [vm_compute; auto|]. vm_compute. auto.
Qed.

(** C16.  Stored sizes that divide the lattice sizes: every site c gets the stored
    value at c modulo the stored size. *)
Theorem C16_replicated : forall (V B : Type) (ser : V -> list B) deser sz lat insize spr fuel
    (st : rank_store V) G rest,
  codec ser deser sz -> valid_lattice lat -> 1 <= spr -> zprod insize < Z.of_nat fuel ->
  Forall2 (fun n m => 0 < m /\ (m | n)) (l_size lat) insize ->
  exists st', field_read_sized deser sz fuel lat insize spr (file_of ser insize G ++ rest) st = Done (st', rest) /\
    represents lat st' (fun c => G (modulo_size insize c)).
Proof.
  intros V B ser deser sz lat insize spr fuel st G rest Hc Hv Hs Hf Hd.
  assert (Hfit := divides_fits _ _ (valid_sizes lat Hv) Hd).
  destruct (read_sized_ok ser deser sz Hc lat Hv insize Hfit spr fuel st _ G rest Hs Hf (some_field V lat st Hv))
    as (st' & F' & A & R & A3 & _).
  exists st'. split; auto. intros r c Hr Hh. rewrite R by auto. apply A3.
  apply covered_divides; auto. apply (LayoutProofs2.holds_is_site lat r); auto.
Qed.
Print Assumptions C16_replicated.

(** C16.  In general (no stored size larger than the lattice): exactly the sites
    covered by whole copies are set, the others keep their old values ... *)
Theorem C16_covered_sites_set_others_unwritten : forall (V B : Type) (ser : V -> list B) deser sz lat insize spr fuel
    (st : rank_store V) F G rest,
  codec ser deser sz -> valid_lattice lat -> 1 <= spr -> zprod insize < Z.of_nat fuel ->
  Forall2 (fun n m => 0 < m <= n) (l_size lat) insize -> represents lat st F ->
  exists st' F', field_read_sized deser sz fuel lat insize spr (file_of ser insize G ++ rest) st = Done (st', rest) /\
    represents lat st' F' /\
    (forall c, covered (l_size lat) insize c -> F' c = G (modulo_size insize c)) /\
    (forall c, ~ covered (l_size lat) insize c -> F' c = F c).
Proof.
  intros V B ser deser sz lat insize spr fuel st F G rest Hc Hv Hs Hf Hfit HF.
  exact (read_sized_ok ser deser sz Hc lat Hv insize Hfit spr fuel st F G rest Hs Hf HF).
Qed.
Print Assumptions C16_covered_sites_set_others_unwritten.

(** ... and if a stored size does not divide the lattice size there are such sites. *)
Theorem C16_every_site_set_refuted : forall ls insize,
  Forall2 (fun n m => 0 < m <= n) ls insize -> Forall (fun n => 0 < n) ls ->
  ~ Forall2 (fun n m => (m | n)) ls insize ->
  exists c, is_site ls c /\ ~ covered ls insize c.
Proof. intros ls insize H Hp. exact (uncovered_exists ls insize H Hp). Qed.
Print Assumptions C16_every_site_set_refuted.

(** A stored size larger than the lattice: coordinates outside of the lattice. *)
Theorem C16_larger_configuration_refuted : forall (V B : Type) (ser : V -> list B) deser sz lat insize d spr fuel
    (st : rank_store V) G rest,
  codec ser deser sz -> valid_lattice lat -> 1 <= spr -> zprod insize < Z.of_nat fuel ->
  Forall (fun m => 0 < m) insize -> length insize = length (l_size lat) ->
  (d < length insize)%nat -> nth d (l_size lat) 0 < nth d insize 0 ->
  field_read_sized deser sz fuel lat insize spr (file_of ser insize G ++ rest) st = Fault.
Proof.
  intros V B ser deser sz lat insize d spr fuel st G rest Hc Hv Hs Hf Hp Hl Hd Hg.
  exact (larger_faults ser deser sz Hc lat Hv insize Hp Hl d Hd Hg spr fuel st _ G rest Hs Hf (some_field V lat st Hv)).
Qed.
Print Assumptions C16_larger_configuration_refuted.

Example C16_example :
  Forall2 (fun n m => 0 < m /\ (m | n)) (l_size ex_lat) [5; 2] /\
  Forall2 (fun n m => 0 < m <= n) (l_size ex_lat) [2; 2] /\
  is_site (l_size ex_lat) [4; 1] /\ ~ covered (l_size ex_lat) [2; 2] [4; 1] /\
  (** the whole field is read back: sites (4, y) keep the old value -1 *)
  match field_read_sized ex_deser 2 5 ex_lat [2; 2] 3 (file_of ex_ser [2; 2] ex_field) (fun _ _ => -1) with
  | Done (st', []) =>
      gather_elements ex_lat 0 (sites_in_file_order [5; 4]) st' =
      Some [0; 10; 0; 10; -1;  1; 11; 1; 11; -1;  0; 10; 0; 10; -1;  1; 11; 1; 11; -1]
  | _ => False
  end.
Proof.
  split. { constructor; [split; [lia|exists 1; lia]|]. constructor; [split; [lia|exists 2; lia]|constructor]. }
  split. { repeat constructor; lia. }
  split. { concrete_site. }
  split. { vm_compute. intuition discriminate. }
  vm_compute. reflexivity.
Qed.
