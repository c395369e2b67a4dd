(** The full transform. *)
From Verif Require Import Common LayoutModel LayoutSpec LayoutProofs1 LayoutProofs2 LayoutProofs4 FftModel FftSpec FftProofs1 FftProofs2 FftProofs3.
Open Scope Z_scope.

Lemma fold_max_le : forall (A : Type) (f : A -> Z) l b, b <= fold_left (fun acc x => Z.max acc (f x)) l b /\
  (forall x, In x l -> f x <= fold_left (fun acc x => Z.max acc (f x)) l b).
Proof.
  intros A f l. induction l as [|y l IH]; intros b; cbn [fold_left]; [split; [lia|intros x []]|].
  destruct (IH (Z.max b (f y))) as [H1 H2]. split; [lia|]. intros x [->|Hx]; [lia|now apply H2].
Qed.

Section Full.
Context {V : Type}.
Variable lat : lattice.
Hypothesis Hv : valid_lattice lat.
Hypothesis Hne : no_empty_rank lat.
Variable E : Z.
Hypothesis HE : 0 < E.

Notation dim := (length (l_size lat)).

(** ** Buffer sizes *)
Definition bs (r : Z) : Z := match fft_buf_size lat r with Some n => n * E | None => 0 end.

Lemma buf_size_ok : forall r, is_rank lat r -> exists n, fft_buf_size lat r = Some n /\
  volume (nodeinfo lat r) <= n /\ forall dir, (dir < dim)%nat -> mycols lat dir r * rpos lat dir r (nth dir (n_divisions lat) 0) <= n.
Proof.
  intros r Hr. unfold fft_buf_size.
  rewrite (all_some_map _ _ _ (fun d => map (pencil_of lat d r) (zrange 0 (Z.to_nat (nth d (n_divisions lat) 0))))).
  - eexists. split; [reflexivity|]. split; [lia|]. intros dir Hd.
    rewrite <- (recv_size_spec lat Hv Hne dir Hd r Hr).
    match goal with |- _ <= Z.max (fold_left _ ?l 1) _ => destruct (fold_max_le _ (recv_buf_size r) l 1) as [_ H] end.
    etransitivity; [|apply Z.le_max_l]. apply H. apply (in_map (fun d => map (pencil_of lat d r) (zrange 0 (Z.to_nat (nth d (n_divisions lat) 0))))).
    apply in_seq. lia.
  - intros d Hd. apply in_seq in Hd. apply (pencil_row_spec lat Hv Hne d); [lia|exact Hr].
Qed.

Lemma bs_big : forall dir, (dir < dim)%nat -> big_enough lat dir E bs.
Proof.
  intros dir Hd r Hr. unfold bs. destruct (buf_size_ok r Hr) as (n & -> & H1 & H2). specialize (H2 dir Hd).
  rewrite (volume_cols lat Hv dir Hd r Hr) in H1. nia.
Qed.

(** ** Buffers as fields *)
Definition addr (r : Z) (dir : nat) (x : list Z) (e : Z) : Z :=
  site_offset (nodeinfo lat r) dir E x + e * elem_offset (nodeinfo lat r) dir.

Definition fh (r : Z) (dir : nat) (g : list Z -> Z -> V) (b : buffer V) : Prop :=
  forall x e, holds lat r x -> 0 <= e < E -> b_at b (addr r dir x e) = Some (g x e).

Section Dir.
Variable dir : nat.
Hypothesis Hdir : (dir < dim)%nat.
Notation s_ r := (nth dir (n_siz (nodeinfo lat r)) 0).

Lemma addr_eq : forall r x e, is_rank lat r -> holds lat r x -> 0 <= e < E ->
  let a := addr r dir x e in
  0 <= a < cols lat dir r * E * s_ r /\
  a / s_ r / E = perp dir (n_min (nodeinfo lat r)) (n_siz (nodeinfo lat r)) x /\ (a / s_ r) mod E = e /\
  a mod s_ r = nth dir x 0 - nth dir (n_min (nodeinfo lat r)) 0.
Proof.
  intros r x e Hr Hx He a. destruct (rank_lengths lat Hv r) as [L1 L2]. assert (Hx' := Hx). destruct Hx as (X1 & X2 & X3).
  assert (Hs := s_pos lat Hv Hne dir Hdir r Hr).
  assert (Ea : a = (perp dir (n_min (nodeinfo lat r)) (n_siz (nodeinfo lat r)) x * E + e) * s_ r + (nth dir x 0 - nth dir (n_min (nodeinfo lat r)) 0)).
  { unfold a, addr. apply site_address; lia. }
  specialize (X3 dir ltac:(lia)).
  assert (Hp := perp_range (n_siz (nodeinfo lat r)) dir (n_min (nodeinfo lat r)) x ltac:(lia) Hx'). fold (cols lat dir r) in Hp.
  rewrite Ea. rewrite div_add_l, mod_add_l by lia. set (t := nth dir x 0 - nth dir (n_min (nodeinfo lat r)) 0) in *.
  rewrite (Z.div_small t), (Z.mod_small t) by lia. rewrite Z.add_0_r.
  rewrite div_add_l, mod_add_l by lia. rewrite (Z.div_small e), (Z.mod_small e) by lia.
  set (p := perp _ _ _ _) in *. split; [|split; [lia|split; reflexivity]].
  assert (H1 : (p + 1) * E <= cols lat dir r * E) by (apply Z.mul_le_mono_nonneg_r; lia).
  assert (H2 : (p * E + e + 1) * s_ r <= cols lat dir r * E * s_ r) by (apply Z.mul_le_mono_nonneg_r; lia).
  assert (H3 : 0 <= (p * E + e) * s_ r) by (apply Z.mul_nonneg_nonneg; [nia|lia]). lia.
Qed.

Lemma fh_sb : forall r g b, is_rank lat r -> (fh r dir g b <-> sb_holds lat dir E r (hrow lat dir E g r) b).
Proof.
  intros r g b Hr. assert (Hs := s_pos lat Hv Hne dir Hdir r Hr). destruct (rank_lengths lat Hv r) as [L1 L2].
  assert (Hm : cdiv (nth dir (l_size lat) 0) (nth dir (n_divisions lat) 0) (kidx lat dir r) = nth dir (n_min (nodeinfo lat r)) 0)
    by (symmetry; apply (rank_component lat Hv Hne r dir Hr Hdir)).
  split.
  - intros H a Ha. rewrite Hm. set (C := a / s_ r) in *.
    assert (HC : 0 <= C < cols lat dir r * E) by (unfold C; split; [apply Z.div_pos; lia|apply Z.div_lt_upper_bound; lia]).
    assert (Hmm : 0 <= C / E < cols lat dir r) by (split; [apply Z.div_pos; lia|apply Z.div_lt_upper_bound; lia]).
    assert (He := Z.mod_pos_bound C E HE). assert (Ht := Z.mod_pos_bound a (s_ r) Hs).
    destruct (col_region (n_siz (nodeinfo lat r)) dir (n_min (nodeinfo lat r)) (C / E) (nth dir (n_min (nodeinfo lat r)) 0 + a mod s_ r)) as [R1 R2];
      [lia|lia|now apply (rank_sizes_pos lat Hv Hne)|exact Hmm|lia|].
    specialize (H _ (C mod E) R1 He). unfold hrow. rewrite <- H. f_equal. unfold addr.
    rewrite site_address; [|lia|destruct R1 as (X1 & X2 & _); lia|lia]. rewrite R2, col_nth by lia.
    assert (E1 := Z.div_mod C E ltac:(lia)). assert (E2 := Z.div_mod a (s_ r) ltac:(lia)). fold C in E2. nia.
  - intros H x e Hx He. destruct (addr_eq r x e Hr Hx He) as (A1 & A2 & A3 & A4). rewrite (H _ A1), Hm. unfold hrow.
    rewrite A2, A3, A4. do 2 f_equal. replace (nth dir (n_min (nodeinfo lat r)) 0 + _) with (nth dir x 0) by lia.
    apply col_perp; [lia|exact Hx].
Qed.

Lemma addr_inj : forall r x e x' e', is_rank lat r -> holds lat r x -> 0 <= e < E -> holds lat r x' -> 0 <= e' < E ->
  addr r dir x e = addr r dir x' e' -> x = x' /\ e = e'.
Proof.
  intros r x e x' e' Hr Hx He Hx' He' Eq. destruct (rank_lengths lat Hv r) as [L1 L2].
  destruct (addr_eq r x e Hr Hx He) as (_ & A2 & A3 & A4). destruct (addr_eq r x' e' Hr Hx' He') as (_ & B2 & B3 & B4).
  rewrite Eq in A2, A3, A4. split; [|lia].
  rewrite <- (col_perp (n_siz (nodeinfo lat r)) dir (n_min (nodeinfo lat r)) x ltac:(lia) Hx).
  rewrite <- (col_perp (n_siz (nodeinfo lat r)) dir (n_min (nodeinfo lat r)) x' ltac:(lia) Hx'). f_equal; lia.
Qed.
End Dir.

(** ** Field loops *)
Lemma rank_loop_In : forall r x, is_rank lat r -> (In x (rank_loop lat r) <-> holds lat r x).
Proof. intros r x Hr. unfold rank_loop. rewrite (proj2 (loop_visits lat r ALL Hv Hr)). cbn [has_parity]. tauto. Qed.

Lemma site_elems_In : forall l q, In q (site_elems l E) <-> In (fst q) l /\ 0 <= snd q < E.
Proof.
  intros l [x e]. unfold site_elems. rewrite in_flat_map. cbn [fst snd]. split.
  - intros (y & Hy & H). apply in_map_iff in H. destruct H as (e' & Heq & He). injection Heq as -> ->. apply zrange_In in He. split; [exact Hy|lia].
  - intros [Hx He]. exists x. split; [exact Hx|]. apply in_map_iff. exists e. split; [reflexivity|]. apply zrange_In. lia.
Qed.

Lemma site_elems_NoDup : forall l, NoDup l -> NoDup (site_elems l E).
Proof.
  intros l H. unfold site_elems. induction H as [|x l Hx Hl IH]; [constructor|]. cbn [flat_map]. apply NoDup_app_intro.
  - apply NoDup_map_inj; [|apply zrange_NoDup]. intros a b _ _ Hab. now injection Hab.
  - exact IH.
  - intros q H1 H2. apply in_map_iff in H1. destruct H1 as (e & <- & _). fold (site_elems l E) in H2. apply site_elems_In in H2. now apply Hx.
Qed.

(** Writing the values of [g] one after another. *)
Lemma fill_ok : forall r dir g (step : buffer V -> list Z * Z -> option (buffer V)) b0, is_rank lat r -> (dir < dim)%nat ->
  b_size b0 = bs r ->
  (forall b q, holds lat r (fst q) -> 0 <= snd q < E -> step b q = write b (addr r dir (fst q) (snd q)) [g (fst q) (snd q)]) ->
  exists b, option_fold step (site_elems (rank_loop lat r) E) b0 = Some b /\ b_size b = bs r /\ fh r dir g b.
Proof.
  intros r dir g step b0 Hr Hd Hb Hstep.
  destruct (option_fold_inv _ _ step (fun done b => b_size b = bs r /\
     forall q, In q done -> b_at b (addr r dir (fst q) (snd q)) = Some (g (fst q) (snd q))) (site_elems (rank_loop lat r) E) b0) as (b & E1 & E2 & E3).
  - split; [exact Hb|]. intros q [].
  - intros l1 q l2 b Hl [Hs Hc].
    assert (Hall : forall q', In q' (l1 ++ [q]) -> holds lat r (fst q') /\ 0 <= snd q' < E).
    { intros q' Hq'. assert (In q' (site_elems (rank_loop lat r) E)) as H.
      { rewrite Hl. apply in_app_iff in Hq'. destruct Hq' as [H|[<-|[]]]; [apply in_or_app; now left|apply in_elt]. }
      apply site_elems_In in H. destruct H as [H1 H2]. apply rank_loop_In in H1; [|exact Hr]. now split. }
    destruct (Hall q) as [Hq He]; [apply in_or_app; right; now left|].
    rewrite Hstep by assumption. destruct (addr_eq dir Hd r (fst q) (snd q) Hr Hq He) as [A1 _].
    destruct (bs_big dir Hd r Hr) as [B1 _].
    destruct (write_spec b (addr r dir (fst q) (snd q)) [g (fst q) (snd q)]) as (b' & Eb & Sb & W1 & W2); [lia|cbn [length]; lia|].
    exists b'. split; [exact Eb|]. split; [congruence|]. intros q' Hq'. destruct (Hall q' Hq') as [Hq'1 Hq'2]. cbn [length] in W1, W2.
    destruct (Z.eq_dec (addr r dir (fst q') (snd q')) (addr r dir (fst q) (snd q))) as [Eq|Ne].
    + destruct (addr_inj dir Hd r _ _ _ _ Hr Hq'1 Hq'2 Hq He Eq) as [-> ->]. rewrite <- (Z.add_0_r (addr _ _ _ _)). now rewrite W1 by lia.
    + rewrite W2 by lia. apply Hc. apply in_app_iff in Hq'. destruct Hq' as [H|[<-|[]]]; [exact H|congruence].
  - exists b. split; [exact E1|]. split; [exact E2|]. intros x e Hx He. apply (E3 (x, e)). apply site_elems_In. cbn [fst snd].
    split; [now apply rank_loop_In|exact He].
Qed.

Lemma collect_ok : forall r dir g sb, is_rank lat r -> (dir < dim)%nat -> b_size sb = bs r ->
  exists b, collect_data lat r dir E g sb = Some b /\ b_size b = bs r /\ fh r dir g b.
Proof. intros r dir g sb Hr Hd Hb. unfold collect_data. apply fill_ok; [exact Hr|exact Hd|exact Hb|]. reflexivity. Qed.

Lemma read_one : forall r dir g rb x e, is_rank lat r -> (dir < dim)%nat -> b_size rb = bs r -> fh r dir g rb ->
  holds lat r x -> 0 <= e < E -> read rb (addr r dir x e) 1 = Some [g x e].
Proof.
  intros r dir g rb x e Hr Hd Hb Hh Hx He. destruct (addr_eq dir Hd r x e Hr Hx He) as [A1 _]. destruct (bs_big dir Hd r Hr) as [B1 _].
  rewrite (read_spec rb _ 1 (fun _ => g x e)); [reflexivity|lia|lia|lia|].
  intros z Hz. replace z with 0 by lia. rewrite Z.add_0_r. now apply Hh.
Qed.

Lemma reshuffle_ok : forall r prev dir g rb sb, is_rank lat r -> (prev < dim)%nat -> (dir < dim)%nat ->
  b_size sb = bs r -> b_size rb = bs r -> fh r prev g rb ->
  exists b, reshuffle_data lat r prev dir E rb sb = Some b /\ b_size b = bs r /\ fh r dir g b.
Proof.
  intros r prev dir g rb sb Hr Hp Hd Hb Hb2 Hh. unfold reshuffle_data. apply fill_ok; [exact Hr|exact Hd|exact Hb|].
  intros b [x e] Hx He. cbn [fst snd] in *. fold (addr r prev x e). now rewrite (read_one r prev g rb x e).
Qed.

Lemma save_ok : forall r dir g rb, is_rank lat r -> (dir < dim)%nat -> b_size rb = bs r -> fh r dir g rb ->
  exists out, save_result lat r dir E rb = Some out /\ is_field_on lat r E g out.
Proof.
  intros r dir g rb Hr Hd Hb Hh. unfold save_result.
  rewrite (all_some_map _ _ _ (fun q => (q, g (fst q) (snd q)))).
  - eexists. split; [reflexivity|]. split.
    + rewrite map_map. cbn [fst]. rewrite map_id. apply site_elems_NoDup. apply (loop_visits lat r ALL Hv Hr).
    + intros x e v. rewrite in_map_iff. split.
      * intros ([x' e'] & Heq & Hin). injection Heq as -> -> <-. apply site_elems_In in Hin. cbn [fst snd] in Hin.
        destruct Hin as [H1 H2]. apply rank_loop_In in H1; [|exact Hr]. auto.
      * intros (Hx & He & ->). exists (x, e). split; [reflexivity|]. apply site_elems_In. split; [now apply rank_loop_In|exact He].
  - intros [x e] Hq. apply site_elems_In in Hq. cbn [fst snd] in *. destruct Hq as [Hx He]. apply rank_loop_In in Hx; [|exact Hr].
    fold (addr r dir x e). now rewrite (read_one r dir g rb x e).
Qed.

(** ** One direction *)
Definition send_state (dir : nat) (g : list Z -> Z -> V) (st : ranks) : Prop :=
  forall r, is_rank lat r -> exists bufs, st r = Some bufs /\ sized bs r bufs /\ fh r dir g (fst bufs).
Definition recv_state (dir : nat) (g : list Z -> Z -> V) (st : ranks) : Prop :=
  forall r, is_rank lat r -> exists bufs, st r = Some bufs /\ sized bs r bufs /\ fh r dir g (snd bufs).

Lemma columns_step_ok : forall (F : nat -> list V -> list V) dir g st, (dir < dim)%nat ->
  (forall l, Z.of_nat (length l) = nth dir (l_size lat) 0 -> length (F dir l) = length l) ->
  send_state dir g st -> recv_state dir (along (nth dir (l_size lat) 0) dir (F dir) g) (columns_step lat E F dir st).
Proof.
  intros F dir g st Hd HF Hst r Hr. set (g' := along _ _ _ _). assert (Hb := bs_big dir Hd). assert (Hnd := nd_range lat Hv Hne dir Hd).
  assert (H1 : forall r, is_rank lat r -> exists bufs, gather_data lat dir E st r = Some bufs /\ sized bs r bufs /\ located lat dir E r (hrow lat dir E g r) bufs).
  { apply (gather_ok lat Hv Hne dir Hd E HE); [exact Hb|]. intros r' Hr'. destruct (Hst r' Hr') as (bufs & H1 & H2 & H3).
    exists bufs. split; [exact H1|]. split; [exact H2|]. now apply fh_sb. }
  assert (H2 : forall r, is_rank lat r -> exists bufs, transform lat dir E (F dir) (gather_data lat dir E st) r = Some bufs /\ sized bs r bufs /\
                          located lat dir E r (hrow lat dir E g' r) bufs).
  { intros r' Hr'. destruct (H1 r' Hr') as (bufs & E1 & E2 & E3).
    apply (transform_ok lat Hv Hne dir Hd E HE bs _ (F dir) r' (hrow lat dir E g r') (hrow lat dir E g' r') bufs); try assumption.
    intros C y Hy. unfold hrow at 2. unfold g', along. destruct (rank_lengths lat Hv r') as [L1 L2].
    rewrite col_nth by lia.
    rewrite (nth_error_nth' _ (g (col dir (n_min (nodeinfo lat r')) (n_siz (nodeinfo lat r')) (C / E) y) (C mod E))).
    - f_equal. f_equal. f_equal. apply map_ext. intros k. unfold hrow. now rewrite col_set by lia.
    - rewrite HF; rewrite map_length, zrange_length; lia. }
  destruct (scatter_ok lat Hv Hne dir Hd E HE bs _ g' Hb H2 r Hr) as ([sb rb] & E1 & [E2 E3] & E4). cbn [fst snd] in *.
  exists (rb, sb). split; [unfold columns_step, swap_buffers; now rewrite E1|]. split; [split; assumption|]. now apply fh_sb.
Qed.

Lemma transform_dirs_ok : forall (F : nat -> list V -> list V) f dirs prev g st,
  Forall (fun d => (d < dim)%nat) dirs -> (prev < dim)%nat ->
  (forall d l, In d dirs -> Z.of_nat (length l) = nth d (l_size lat) 0 -> length (F d l) = length l) ->
  recv_state prev g st ->
  exists d, snd (transform_dirs lat E F f (Some prev) dirs st) = Some d /\ (d < dim)%nat /\
    recv_state d (along_all (l_size lat) F dirs g) (fst (transform_dirs lat E F f (Some prev) dirs st)).
Proof.
  intros F f dirs. induction dirs as [|dir dirs IH]; intros prev g st Hall Hp HF Hst.
  - exists prev. cbn [transform_dirs fst snd]. auto.
  - inversion Hall as [|x l Hd Hall']; subst. cbn [transform_dirs]. unfold along_all. cbn [fold_left].
    apply (IH dir (along (nth dir (l_size lat) 0) dir (F dir) g)); [exact Hall'|exact Hd|intros; apply HF; [now right|assumption]|].
    apply columns_step_ok; [exact Hd|intros l; apply HF; now left|].
    intros r Hr. destruct (Hst r Hr) as ([sb rb] & E1 & [S1 S2] & E2). cbn [fst snd] in *. unfold on_send. rewrite E1.
    destruct (reshuffle_ok r prev dir g rb sb Hr Hp Hd S1 S2 E2) as (b & B1 & B2 & B3). rewrite B1.
    exists (b, rb). split; [reflexivity|]. split; [split; assumption|exact B3].
Qed.

Theorem full_transform_ok : forall (F : nat -> list V -> list V) dirs f r,
  Forall (fun d => (d < dim)%nat) dirs -> dirs <> [] ->
  (forall d l, In d dirs -> Z.of_nat (length l) = nth d (l_size lat) 0 -> length (F d l) = length l) ->
  is_rank lat r ->
  exists out, full_transform lat E F dirs f r = Some out /\ is_field_on lat r E (along_all (l_size lat) F dirs f) out.
Proof.
  intros F dirs f r Hall Hn HF Hr. destruct dirs as [|dir dirs]; [congruence|]. inversion Hall as [|x l Hd Hall']; subst.
  unfold full_transform. cbn [transform_dirs].
  set (st1 := columns_step lat E F dir (on_send (fun r sb _ => collect_data lat r dir E f sb) (start lat E))).
  assert (H1 : recv_state dir (along (nth dir (l_size lat) 0) dir (F dir) f) st1).
  { apply columns_step_ok; [exact Hd|intros l; apply HF; now left|]. intros r' Hr'. unfold on_send, start.
    destruct (buf_size_ok r' Hr') as (n & E1 & _). rewrite E1.
    assert (Hbs : n * E = bs r') by (unfold bs; now rewrite E1).
    destruct (collect_ok r' dir f (fresh_buffer (n * E)) Hr' Hd) as (b & B1 & B2 & B3); [exact Hbs|]. rewrite B1.
    exists (b, fresh_buffer (n * E)). split; [reflexivity|]. split; [split; [exact B2|exact Hbs]|exact B3]. }
  destruct (transform_dirs_ok F f dirs dir _ st1 Hall' Hd (fun d l Hin => HF d l (or_intror Hin)) H1) as (d & E1 & Hdd & E2).
  destruct (transform_dirs lat E F f (Some dir) dirs st1) as [st2 last]. cbn [fst snd] in *. subst last.
  destruct (E2 r Hr) as ([sb rb] & B1 & [B2 B3] & B4). cbn [fst snd] in *. rewrite B1.
  now apply save_ok.
Qed.
End Full.
