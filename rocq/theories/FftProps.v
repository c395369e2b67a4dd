(** C31, C32, C33: columns of the FFT, reflection, independent modes. *)
From Verif Require Import Common LayoutModel LayoutSpec LayoutProofs1 LayoutProofs2 LayoutProofs4 LayoutProps
  FftModel FftSpec FftProofs1 FftProofs2 FftProofs3 FftProofs4 FftProofs5.
Open Scope Z_scope.

(** ** C31 *)

(** The redistribution into columns, the column functions and the way back give on
    every rank the successive transforms along the directions: no rank fails, every site
    gets its value once. *)
Theorem C31_transform : forall (V : Type) lat E (F : nat -> list V -> list V) dirs (f : list Z -> Z -> V) r,
  valid_lattice lat -> no_empty_rank lat -> 0 < E ->
  Forall (fun d => (d < length (l_size lat))%nat) dirs -> dirs <> [] ->
  (forall d l, In d dirs -> Z.of_nat (length l) = nth d (l_size lat) 0 -> length (F d l) = length l) ->
  is_rank lat r ->
  exists out, full_transform lat E F dirs f r = Some out /\ is_field_on lat r E (along_all (l_size lat) F dirs f) out.
Proof. intros V lat E F dirs f r Hv Hne HE Hd Hn HF Hr. now apply full_transform_ok. Qed.
Print Assumptions C31_transform.

(** With columns left as they are the field comes back unchanged. *)
Theorem C31_identity : forall (V : Type) lat E dirs (f : list Z -> Z -> V) r,
  valid_lattice lat -> no_empty_rank lat -> 0 < E ->
  Forall (fun d => (d < length (l_size lat))%nat) dirs -> dirs <> [] -> is_rank lat r ->
  exists out, full_transform lat E (fun _ l => l) dirs f r = Some out /\ is_field_on lat r E f out.
Proof.
  intros V lat E dirs f r Hv Hne HE Hd Hn Hr.
  destruct (C31_transform V lat E (fun _ l => l) dirs f r Hv Hne HE Hd Hn ltac:(reflexivity) Hr) as (out & E1 & N1 & I1).
  exists out. split; [exact E1|]. split; [exact N1|]. intros x e v. rewrite I1.
  assert (forall dirs g, Forall (fun d => (d < length (l_size lat))%nat) dirs -> is_site (l_size lat) x ->
     along_all (l_size lat) (fun (_ : nat) (l : list V) => l) dirs g x e = g x e) as H.
  { clear. induction dirs as [|d dirs IH]; intros g Hd Hx; [reflexivity|]. inversion Hd as [|d' l Hd1 Hd2]; subst.
    unfold along_all. cbn [fold_left]. fold (along_all (l_size lat) (fun (_ : nat) (l : list V) => l) dirs (along (nth d (l_size lat) 0) d (fun l => l) g)).
    rewrite IH by assumption. unfold along. destruct Hx as [Hl Hx]. specialize (Hx d Hd1). apply nth_error_nth.
    rewrite nth_error_map_zrange by exact Hx. now rewrite set_coord_same by lia. }
  split; intros (H1 & H2 & H3); (split; [exact H1|split; [exact H2|]]); rewrite H3; [|symmetry]; apply H;
    try assumption; now apply (holds_is_site lat r).
Qed.
Print Assumptions C31_identity.

(** Every column belongs to exactly one entry of the row of ranks, all ranks of the row
    agree on the number of columns of every entry, and the pieces make up full columns. *)
Theorem C31_columns : forall lat dir r, valid_lattice lat -> no_empty_rank lat -> (dir < length (l_size lat))%nat -> is_rank lat r ->
  let size := nth dir (n_siz (nodeinfo lat r)) 0 in
  exists row, pencil_row lat r dir = Some row /\
    Z.of_nat (length row) = nth dir (n_divisions lat) 0 /\
    NoDup (map p_node row) /\ In r (map p_node row) /\ zsum (map p_size row) = nth dir (l_size lat) 0 /\
    (forall m, 0 <= m < volume (nodeinfo lat r) / size ->
       exists i p, nth_error row i = Some p /\ p_offset p <= m * size < p_offset p + p_number p * size /\
         forall j p', nth_error row j = Some p' -> p_offset p' <= m * size < p_offset p' + p_number p' * size -> j = i) /\
    (forall p, In p row -> exists row', pencil_row lat (p_node p) dir = Some row' /\
         p_size p = nth dir (n_siz (nodeinfo lat (p_node p))) 0 /\
         map p_node row' = map p_node row /\ map p_size row' = map p_size row /\ map p_number row' = map p_number row /\
         my_columns (p_node p) row' = p_number p).
Proof.
  intros lat dir r Hv Hne Hd Hr size. assert (Hnd := nd_range lat Hv Hne dir Hd).
  exists (map (pencil_of lat dir r) (zrange 0 (Z.to_nat (nth dir (n_divisions lat) 0)))).
  split; [now apply pencil_row_spec|]. split; [rewrite map_length, zrange_length; lia|].
  split; [|split; [|split; [|split]]].
  - rewrite map_map. apply NoDup_map_inj; [|apply zrange_NoDup]. intros a b Ha Hb Hab. apply zrange_In in Ha, Hb.
    apply (row_inj lat Hv Hne dir Hd r a b Hr); [lia|lia|exact Hab].
  - rewrite map_map. apply in_map_iff. exists (kidx lat dir r). split; [now apply row_own|].
    apply zrange_In. assert (G := k_range lat Hv Hne dir Hd r Hr). lia.
  - rewrite map_map. cbn [pencil_of p_size].
    assert (H : forall n, zsum (map (fun i => cdiv (nth dir (l_size lat) 0) (nth dir (n_divisions lat) 0) (i + 1) -
       cdiv (nth dir (l_size lat) 0) (nth dir (n_divisions lat) 0) i) (zrange 0 n)) = cdiv (nth dir (l_size lat) 0) (nth dir (n_divisions lat) 0) (Z.of_nat n)).
    { induction n as [|n IH]; [now rewrite cdiv_0|]. rewrite zrange_S_r, map_app. cbn [map]. rewrite zsum_S_r, IH, Z.add_0_l.
      replace (Z.of_nat (S n)) with (Z.of_nat n + 1) by lia. lia. }
    rewrite H, Z2Nat.id by lia. apply cdiv_n. lia.
  - intros m Hm. assert (Hs := s_pos lat Hv Hne dir Hd r Hr). fold size in Hs.
    rewrite (volume_cols lat Hv dir Hd r Hr) in Hm. fold size in Hm. rewrite Z.div_mul in Hm by lia.
    destruct (cb_search lat Hv Hne dir Hd r m Hr Hm) as (i & Hi & Hc).
    assert (Hiff : forall i, cb lat dir r i <= m < cb lat dir r (i + 1) <->
        cb lat dir r i * size <= m * size < cb lat dir r i * size + (cb lat dir r (i + 1) - cb lat dir r i) * size) by (intros; nia).
    exists (Z.to_nat i), (pencil_of lat dir r i). split; [|split].
    + rewrite nth_error_map, nth_error_zrange by lia. cbn [option_map]. do 2 f_equal. lia.
    + cbn [pencil_of p_offset p_number]. now apply Hiff.
    + intros j p' Hj Hp'. rewrite nth_error_map in Hj. destruct (nth_error (zrange 0 _) j) as [z|] eqn:Ej; [|discriminate].
      cbn [option_map] in Hj. injection Hj as <-. assert (Hjl : (j < Z.to_nat (nth dir (n_divisions lat) 0%Z))%nat).
      { rewrite <- (zrange_length (Z.to_nat (nth dir (n_divisions lat) 0)) 0). apply nth_error_Some. congruence. }
      rewrite nth_error_zrange in Ej by exact Hjl. injection Ej as <-. cbn [pencil_of p_offset p_number] in Hp'. fold size in Hp'. apply Hiff in Hp'.
      destruct (Z.lt_trichotomy i (Z.of_nat j)) as [Hl|[He|Hl]]; [|lia|].
      * assert (G := cb_le lat Hv Hne dir Hd r (i + 1) (Z.of_nat j) Hr ltac:(lia)). lia.
      * assert (G := cb_le lat Hv Hne dir Hd r (Z.of_nat j + 1) i Hr ltac:(lia)). lia.
  - intros p Hp. apply in_map_iff in Hp. destruct Hp as (i & <- & Hi). apply zrange_In in Hi. cbn [pencil_of p_node p_size p_number].
    destruct (row_rank lat Hv Hne dir Hd r i Hr ltac:(lia)) as (Hq & _).
    exists (map (pencil_of lat dir (qrank lat dir r i)) (zrange 0 (Z.to_nat (nth dir (n_divisions lat) 0)))).
    split; [now apply pencil_row_spec|]. split; [symmetry; apply (row_size lat Hv Hne dir Hd r i Hr); lia|].
    split; [|split; [|split]]; [| | |rewrite (my_columns_spec lat Hv Hne dir Hd _ Hq); unfold mycols;
      rewrite (row_kidx lat Hv Hne dir Hd r i Hr), !(row_cb lat Hv Hne dir Hd r i) by (assumption || lia); reflexivity];
      rewrite !map_map; apply map_ext_in; intros j Hj; cbn [pencil_of p_node p_size p_number].
    + apply (row_same lat Hv Hne dir Hd r i j Hr). lia.
    + reflexivity.
    + now rewrite !(row_cb lat Hv Hne dir Hd r i) by (assumption || lia).
Qed.
Print Assumptions C31_columns.

(** The sections of the receive buffer for the data of different ranks do not overlap
    and lie inside of the buffer. *)
Theorem C31_sections : forall lat dir E r, valid_lattice lat -> no_empty_rank lat -> 0 < E -> (dir < length (l_size lat))%nat -> is_rank lat r ->
  exists row n, pencil_row lat r dir = Some row /\ fft_buf_size lat r = Some n /\
    let ptrs := rec_ptrs E r (my_columns r row) 0 row in
    let ends (p : bool * Z * Z) := snd (fst p) + my_columns r row * E * snd p in
    (forall i p, nth_error ptrs i = Some p -> 0 <= snd (fst p) /\ ends p <= n * E) /\
    (forall i j p p', nth_error ptrs i = Some p -> nth_error ptrs j = Some p' -> (i < j)%nat ->
       fst (fst p) = false -> fst (fst p') = false -> ends p <= snd (fst p')).
Proof.
  intros lat dir E r Hv Hne HE Hd Hr. assert (Hnd := nd_range lat Hv Hne dir Hd). destruct (buf_size_ok lat Hv Hne r Hr) as (n & En & _).
  exists (map (pencil_of lat dir r) (zrange 0 (Z.to_nat (nth dir (n_divisions lat) 0)))), n.
  split; [now apply pencil_row_spec|]. split; [exact En|]. rewrite (my_columns_spec lat Hv Hne dir Hd r Hr), (rec_ptrs_spec lat Hv Hne dir Hd E r Hr).
  cbn zeta. assert (Hb := bs_big lat Hv Hne E HE dir Hd).
  assert (Hbs : bs lat E r = n * E) by (unfold bs; now rewrite En).
  assert (Hnth : forall i p, nth_error (map (ptr lat dir E r) (zrange 0 (Z.to_nat (nth dir (n_divisions lat) 0)))) i = Some p ->
     0 <= Z.of_nat i < nth dir (n_divisions lat) 0 /\ p = ptr lat dir E r (Z.of_nat i)).
  { intros i p H. assert (Hi : (i < Z.to_nat (nth dir (n_divisions lat) 0%Z))%nat).
    { rewrite <- (zrange_length (Z.to_nat (nth dir (n_divisions lat) 0)) 0), <- (map_length (ptr lat dir E r)). apply nth_error_Some. congruence. }
    rewrite nth_error_map, nth_error_zrange in H by exact Hi. cbn [option_map] in H. injection H as <-. split; [lia|reflexivity]. }
  split.
  - intros i p H. destruct (Hnth i p H) as [Hi ->]. unfold ptr. destruct (Z.eqb_spec (Z.of_nat i) (kidx lat dir r)) as [Ek|Ek]; cbn [fst snd].
    + rewrite Ek. destruct (cb_range lat Hv Hne dir Hd E HE (bs lat E) r (kidx lat dir r) Hb Hr ltac:(lia)) as (C1 & C2 & C3).
      assert (Hs := s_pos lat Hv Hne dir Hd r Hr). rewrite <- (s_eq lat Hv Hne dir Hd r Hr). rewrite <- Hbs. unfold mycols.
      split; [apply Z.mul_nonneg_nonneg; [apply Z.mul_nonneg_nonneg; lia|lia]|lia].
    + rewrite <- Hbs. apply (R_range lat Hv Hne dir Hd E HE); assumption.
  - intros i j p p' H1 H2 Hij. destruct (Hnth i p H1) as [Hi ->]. destruct (Hnth j p' H2) as [Hj ->]. unfold ptr.
    destruct (Z.eqb_spec (Z.of_nat i) (kidx lat dir r)) as [Ek|Ek]; cbn [fst snd]; [discriminate|]. intros _.
    destruct (Z.eqb_spec (Z.of_nat j) (kidx lat dir r)) as [Ek'|Ek']; cbn [fst snd]; [discriminate|]. intros _.
    apply (R_next lat Hv Hne dir Hd E HE); [assumption|assumption|lia].
Qed.
Print Assumptions C31_sections.

(** Without any active direction the result is read from memory that was never written. *)
Theorem C31_no_direction_refuted : forall (V : Type) lat E (F : nat -> list V -> list V) (f : list Z -> Z -> V) r,
  full_transform lat E F [] f r = None.
Proof. intros V lat E F f r. unfold full_transform. cbn [transform_dirs]. now destruct (start lat E r) as [[? ?]|]. Qed.
Print Assumptions C31_no_direction_refuted.

(** With a rank that has no sites the set-up divides by zero. *)
Definition empty_rank_lat : lattice := mkLattice [2] [3] (fun i => i) (fun r => r).

Theorem C31_empty_rank_refuted :
  valid_lattice empty_rank_lat /\
  ~ (forall r, is_rank empty_rank_lat r -> exists row, pencil_row empty_rank_lat r 0 = Some row).
Proof.
  split.
  - split; [reflexivity|]. split; [repeat constructor; lia|]. split; [repeat constructor; lia|]. split; intros i Hi; split; auto.
  - intros H. assert (forall r, is_rank empty_rank_lat r -> pencil_row empty_rank_lat r 0 <> None) as H'.
    { intros r Hr. destruct (H r Hr) as [row ->]. discriminate. }
    assert (nth 0 (n_siz (nodeinfo empty_rank_lat 2)) 0 = 0 \/ nth 0 (n_siz (nodeinfo empty_rank_lat 1)) 0 = 0) as [E|E] by (vm_compute; auto).
    + apply (H' 2); [unfold is_rank; cbn; lia|]. unfold pencil_row. now rewrite E.
    + apply (H' 1); [unfold is_rank; cbn; lia|]. unfold pencil_row. now rewrite E.
Qed.
Print Assumptions C31_empty_rank_refuted.

(** ** C32 *)
Theorem C32_reflect : forall (V : Type) lat dirs (f : list Z -> V) r,
  valid_lattice lat -> no_empty_rank lat -> NoDup dirs -> dirs <> [] ->
  Forall (fun d => (d < length (l_size lat))%nat /\ (Z.even (nth d (l_size lat) 0) = true \/ nth d (l_size lat) 0 = 1)) dirs ->
  is_rank lat r ->
  exists out, reflect lat dirs f r = Some out /\ is_field_on lat r 1 (fun x _ => f (mirror_site (l_size lat) dirs x)) out.
Proof.
  intros V lat dirs f r Hv Hne Hnd Hn Hall Hr. unfold reflect.
  destruct (C31_transform V lat 1 (fun _ => reflect_column) dirs (fun x _ => f x) r Hv Hne ltac:(lia)) as (out & E1 & N1 & I1);
    [eapply Forall_impl; [|exact Hall]; intros d H; apply H|exact Hn|intros; apply reflect_column_spec|exact Hr|].
  exists out. split; [exact E1|]. split; [exact N1|]. intros x e v. rewrite I1.
  split; intros (H1 & H2 & H3); (split; [exact H1|split; [exact H2|]]); rewrite H3;
    rewrite (along_all_reflect V (l_size lat) (fun x _ => f x) dirs x e Hnd Hall); try reflexivity; now apply (holds_is_site lat r).
Qed.
Print Assumptions C32_reflect.

(** One direction with L = 2h+1 >= 3: the two middle layers stay where they are. *)
Theorem C32_odd_refuted : forall (V : Type) lat d (f : list Z -> V) r h x,
  valid_lattice lat -> no_empty_rank lat -> (d < length (l_size lat))%nat ->
  nth d (l_size lat) 0 = 2 * h + 1 -> 0 < h -> is_rank lat r -> holds lat r x ->
  nth d x 0 = h \/ nth d x 0 = h + 1 ->
  exists out, reflect lat [d] f r = Some out /\ In (x, 0, f x) out /\ (forall v, In (x, 0, v) out -> v = f x) /\
    mirror_site (l_size lat) [d] x <> x.
Proof.
  intros V lat d f r h x Hv Hne Hd HL Hh Hr Hx Hy. unfold reflect.
  destruct (C31_transform V lat 1 (fun _ => reflect_column) [d] (fun x _ => f x) r Hv Hne ltac:(lia)) as (out & E1 & N1 & I1);
    [repeat constructor; exact Hd|discriminate|intros; apply reflect_column_spec|exact Hr|].
  assert (Hs := holds_is_site lat r x Hv Hr Hx). destruct Hs as [Hl Hs].
  assert (Ev : along_all (l_size lat) (fun _ : nat => reflect_column) [d] (fun x _ => f x) x 0 = f x).
  { unfold along_all. cbn [fold_left]. unfold along. apply nth_error_nth. rewrite HL.
    rewrite (reflect_column_odd V (fun k => f (set_coord d k x)) h (nth d x 0) Hh Hy). now rewrite set_coord_same by lia. }
  exists out. split; [exact E1|]. split; [|split].
  - apply I1. split; [exact Hx|]. split; [lia|]. now rewrite Ev.
  - intros v Hi. apply I1 in Hi. destruct Hi as (_ & _ & ->). exact Ev.
  - intros E. apply (f_equal (fun z => nth d z 0)) in E. rewrite nth_mirror_site in E by lia. cbn [existsb] in E. rewrite Nat.eqb_refl in E. cbn [orb] in E.
    rewrite mirror_cases in E by (apply Hs; exact Hd). destruct (Z.eqb_spec (nth d x 0) 0); lia.
Qed.
Print Assumptions C32_odd_refuted.

(** ** C33 *)
Theorem C33_modes : forall ls x, Forall (fun L => Z.even L = true) ls -> is_site ls x ->
  let y := mirror_site ls (all_dirs ls) x in
  FFT_complex_to_real_site ls y = - FFT_complex_to_real_site ls x /\
  (FFT_complex_to_real_site ls x = 0 <-> y = x) /\
  (FFT_complex_to_real_site ls x = 1 \/ FFT_complex_to_real_site ls x = 0 \/ FFT_complex_to_real_site ls x = -1).
Proof.
  intros ls x He Hx y. unfold y. rewrite mirror_all by apply Hx. apply is_site_inside in Hx. destruct (modes ls x Hx He) as (H1 & H2 & H3 & _). auto.
Qed.
Print Assumptions C33_modes.

Theorem C33_symmetrised : forall ls (f : list Z -> Z * Z) x, Forall (fun L => Z.even L = true) ls -> is_site ls x ->
  let m := mirror_site ls (all_dirs ls) in
  let F := symmetrise ls f (fun z => f (m z)) in
  F (m x) = conj (F x) /\
  (FFT_complex_to_real_site ls x = 1 -> F x = f x) /\ (FFT_complex_to_real_site ls x = 0 -> F x = (fst (f x), 0)).
Proof.
  intros ls f x He Hx m F. assert (Hi := proj1 (is_site_inside ls x) Hx).
  destruct (modes ls x Hi He) as (H1 & H2 & H3 & H4).
  assert (Em : m x = mirror_list ls x) by (apply mirror_all; apply Hx).
  assert (Emm : m (m x) = x).
  { assert (L1 : length (mirror_list ls x) = length ls) by (rewrite <- Em; unfold m; rewrite mirror_site_length; apply Hx).
    rewrite Em. unfold m. rewrite (mirror_all ls (mirror_list ls x) L1). exact H4. }
  assert (Ht : FFT_complex_to_real_site ls (m x) = - FFT_complex_to_real_site ls x) by now rewrite Em.
  unfold F, symmetrise, conj. rewrite Ht. destruct H3 as [E|[E|E]]; rewrite E; cbn [Z.opp Z.eqb Pos.eqb fst snd].
  - rewrite Emm. split; [reflexivity|]. split; [reflexivity|discriminate].
  - split; [|split; [discriminate|reflexivity]]. rewrite Em. apply H2 in E. rewrite E. reflexivity.
  - split; [|split; discriminate]. rewrite Z.opp_involutive. now destruct (f (m x)).
Qed.
Print Assumptions C33_symmetrised.

(** A field that already has the symmetry is left as it is. *)
Theorem C33_symmetric_unchanged : forall ls (f : list Z -> Z * Z) x, Forall (fun L => Z.even L = true) ls -> is_site ls x ->
  let m := mirror_site ls (all_dirs ls) in
  (forall z, is_site ls z -> f (m z) = conj (f z)) -> symmetrise ls f (fun z => f (m z)) x = f x.
Proof.
  intros ls f x He Hx m Hf. assert (Hi := proj1 (is_site_inside ls x) Hx).
  destruct (modes ls x Hi He) as (H1 & H2 & H3 & H4).
  assert (Em : m x = mirror_list ls x) by (apply mirror_all; apply Hx).
  unfold symmetrise. specialize (Hf x Hx). destruct H3 as [E|[E|E]]; rewrite E; cbn [Z.opp Z.eqb Pos.eqb fst snd]; [reflexivity| |].
  - apply H2 in E. rewrite Em, E in Hf. destruct (f x) as [a b]. cbn [conj fst snd] in *. unfold conj in Hf. cbn [fst snd] in Hf. injection Hf as Hb.
    f_equal. lia.
  - rewrite Hf. destruct (f x) as [a b]. unfold conj. cbn [fst snd]. f_equal. lia.
Qed.
Print Assumptions C33_symmetric_unchanged.

(** The reflection used by the code is this mirror image on every rank. *)
Theorem C33_reflected_field : forall lat (f : list Z -> Z * Z) r, valid_lattice lat -> no_empty_rank lat ->
  l_size lat <> [] -> Forall (fun L => Z.even L = true) (l_size lat) -> is_rank lat r ->
  exists out, reflect lat (all_dirs (l_size lat)) f r = Some out /\
    is_field_on lat r 1 (fun x _ => f (mirror_site (l_size lat) (all_dirs (l_size lat)) x)) out.
Proof.
  intros lat f r Hv Hne Hn He Hr. apply C32_reflect; try assumption.
  - apply seq_NoDup.
  - unfold all_dirs. destruct (l_size lat); [congruence|discriminate].
  - apply Forall_forall. intros d Hd. apply in_seq in Hd. split; [lia|]. left. rewrite Forall_forall in He. apply He. apply nth_In. lia.
Qed.
Print Assumptions C33_reflected_field.

(** For odd sizes, where the code gives up, the marks would not fit together. *)
Theorem C33_odd_sizes_refuted : FFT_complex_to_real_site [3] [1] = 0 /\ FFT_complex_to_real_site [3] [2] = -1 /\
  mirror_site [3] (all_dirs [3]) [1] = [2].
Proof. repeat split. Qed.
Print Assumptions C33_odd_sizes_refuted.

(** ** Examples *)
Lemma ex_lat_no_empty : no_empty_rank ex_lat.
Proof. intros j Hj. cbn in Hj. destruct j as [|[|j]]; cbn; lia. Qed.

(** Two elements per site, columns turned round in direction 1 and then 0. *)
Definition ex_rev (d : nat) (l : list (list Z * Z)) : list (list Z * Z) := rev l.

Example C31_example :
  valid_lattice ex_lat /\ no_empty_rank ex_lat /\ is_rank ex_lat 4 /\
  (forall d l, Z.of_nat (length l) = nth d (l_size ex_lat) 0 -> length (ex_rev d l) = length l) /\
  match full_transform ex_lat 2 ex_rev [1%nat; 0%nat] (fun x e => (x, e)) 4 with
  | Some out => forallb (fun q => let '(x, e, (y, e')) := q in
       (nth 0 x 0 + nth 0 y 0 =? 4) && (nth 1 x 0 + nth 1 y 0 =? 3) && (e =? e')) out && negb (Nat.eqb (length out) 0)
  | None => false
  end = true.
Proof.
  split; [exact ex_lat_valid|]. split; [exact ex_lat_no_empty|]. split; [unfold is_rank; cbn; lia|]. split.
  - intros d l _. apply rev_length.
  - vm_compute. reflexivity.
Qed.

Definition even_lat : lattice := mkLattice [4; 6] [2; 3] (fun i => i) (fun r => r).

Example C32_example :
  valid_lattice even_lat /\ no_empty_rank even_lat /\ is_rank even_lat 3 /\
  mirror_site [4; 6] [0%nat; 1%nat] [3; 2] = [1; 4] /\
  match reflect even_lat [0%nat; 1%nat] (fun x => x) 3 with
  | Some out => In ([3; 2], 0, [1; 4]) out
  | None => False
  end /\
  (* direction 0 of ex_lat has 5 sites *)
  match reflect ex_lat [0%nat] (fun x => x) 0 with
  | Some out => In ([2; 0], 0, [2; 0]) out /\ In ([1; 0], 0, [4; 0]) out
  | None => False
  end.
Proof.
  split; [split; [reflexivity|]; split; [repeat constructor; lia|]; split; [repeat constructor; lia|]; split; intros i Hi; split; auto|].
  split; [intros j Hj; cbn in Hj; destruct j as [|[|j]]; cbn; lia|].
  split; [unfold is_rank; cbn; lia|]. split; [reflexivity|]. split; vm_compute; auto 20.
Qed.

Example C33_example : Forall (fun L => Z.even L = true) [8; 8] /\ is_site [8; 8] [5; 4] /\
  mirror_site [8; 8] (all_dirs [8; 8]) [5; 4] = [3; 4] /\
  FFT_complex_to_real_site [8; 8] [5; 4] = -1 /\ FFT_complex_to_real_site [8; 8] [3; 4] = 1 /\ FFT_complex_to_real_site [8; 8] [4; 4] = 0.
Proof.
  split; [repeat constructor|]. split; [|repeat split].
  split; [reflexivity|]. intros j Hj. cbn in Hj. destruct j as [|[|j]]; cbn; lia.
Qed.
