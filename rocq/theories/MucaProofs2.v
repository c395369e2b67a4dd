(** Proofs about the iteration of the weights. *)
From Coq Require Import QArith Lqa.
From Verif Require Import Common RandomModel RandomProofs1 SrcbufModel MucaModel MucaSpec MucaProofs1.
Open Scope nat_scope.

Lemma zip_with_spec : forall {A B D : Type} (f : A -> B -> D) (da : A) (db : B) (dd : D) a b, length a <= length b ->
  exists r, zip_with f a b = Some r /\ length r = length a /\ (forall i, i < length a -> nth i r dd = f (nth i a da) (nth i b db)).
Proof.
  intros A B D f da db dd. induction a as [|x a IH]; intros b Hb; cbn [zip_with].
  - exists []. split; [reflexivity|]. split; [reflexivity|]. intros i Hi. cbn [length] in Hi. lia.
  - destruct b as [|y b]; [cbn [length] in Hb; lia|]. destruct (IH b) as [r [H1 [H2 H3]]]; [cbn [length] in Hb; lia|].
    rewrite H1. cbn [bind]. exists (f x y :: r). split; [reflexivity|]. split; [cbn [length]; lia|].
    intros [|i] Hi; [reflexivity|]. cbn [nth]. apply H3. cbn [length] in Hi. lia.
Qed.

Lemma min_from_spec : forall l x, (In (min_from x l) (x :: l)) /\ (forall y, In y (x :: l) -> (min_from x l <= y)%Q).
Proof.
  induction l as [|z l IH]; intros x; cbn [min_from].
  - split; [left; reflexivity|]. intros y [<-|[]]. lra.
  - destruct (qlt z x) eqn:E.
    + apply qlt_iff in E. destruct (IH z) as [H1 H2]. split; [right; exact H1|].
      intros y [<-|Hy]; [|apply H2; exact Hy]. specialize (H2 z (or_introl eq_refl)). lra.
    + apply qlt_false in E. destruct (IH x) as [H1 H2]. split.
      * destruct H1 as [H1|H1]; [left; exact H1|right; right; exact H1].
      * intros y [<-|[<-|Hy]]; [apply H2; left; reflexivity| |apply H2; right; exact Hy]. specialize (H2 x (or_introl eq_refl)). lra.
Qed.

Lemma nth_zeros : forall {A : Type} (l : list A) i, nth i (map (fun _ => 0%Z) l) 0%Z = 0%Z.
Proof. intros A. induction l as [|x l IH]; intros [|i]; cbn [map nth]; auto. Qed.

Lemma beyond_nil : forall {A B : Type} (a : list A) (b : list B), length b = length a -> beyond a b = [].
Proof. intros A B a b H. unfold beyond. apply skipn_all2. lia. Qed.

(** What one update of the weights does to a state of the right shape. *)
Lemma update_spec : forall f m, well_formed m ->
  exists w t, update_weights f m = Some (with_weights m w t) /\ length w = length (weights m) /\ length t = length (weights m) /\
    (forall i, i < length w -> nth i w 0%Q = f (nth i (weights m) 0%Q) (nth i (hits m) 0%Z)) /\
    (forall i, i < length w -> nth i t 0%Z = (nth i (hits_total m) 0 + nth i (hits m) 0)%Z).
Proof.
  intros f m [W0 [W1 [W2 [W3 [W4 _]]]]]. unfold update_weights.
  destruct (zip_with_spec f 0%Q 0%Z 0%Q (weights m) (hits m) ltac:(lia)) as [w [H1 [H2 H3]]]. rewrite H1. cbn [bind].
  rewrite (firstn_all2 (hits_total m)) by lia.
  destruct (zip_with_spec (fun a b => (a + b)%Z) 0%Z 0%Z 0%Z (hits_total m) (hits m) ltac:(lia)) as [t [G1 [G2 G3]]]. rewrite G1. cbn [bind].
  replace (length (hits_total m) <? length (weights m)) with false by (symmetry; apply Nat.ltb_ge; lia).
  rewrite beyond_nil by exact W4. rewrite app_nil_r. exists w, t. split; [reflexivity|]. split; [exact H2|]. split; [lia|]. split.
  - intros i Hi. apply H3. lia.
  - intros i Hi. apply G3. lia.
Qed.

Lemma rebase_spec : forall m, well_formed m ->
  exists base w z, rebase m = Some (with_hits (with_weights m w (hits_total m)) z) /\ length w = length (weights m) /\ length z = length (weights m) /\
    Forall (fun n => n = 0%Z) z /\ (forall i, i < length w -> nth i w 0%Q = (nth i (weights m) 0 - base)%Q) /\
    (exists i, i < length w /\ (nth i w 0 == 0)%Q) /\ (forall i, i < length w -> (0 <= nth i w 0)%Q).
Proof.
  intros m [W0 [W1 [W2 [W3 [W4 _]]]]]. unfold rebase.
  destruct (weights m) as [|x l] eqn:Ew; [cbn [length] in W0; lia|]. cbn [min_element bind].
  replace (length (hits m) <? length (x :: l)) with false by (symmetry; apply Nat.ltb_ge; lia).
  set (base := min_from x l). destruct (min_from_spec l x) as [M1 M2]. fold base in M1, M2.
  exists base, (map (fun w => (w - base)%Q) (x :: l)), (map (fun _ => 0%Z) (x :: l)).
  rewrite beyond_nil by exact W3. rewrite app_nil_r. split; [reflexivity|]. split; [apply map_length|]. split; [apply map_length|].
  assert (N : forall i, i < length (x :: l) -> nth i (map (fun w => (w - base)%Q) (x :: l)) 0%Q = (nth i (x :: l) 0 - base)%Q).
  { intros i Hi. rewrite (nth_indep (map (fun w => (w - base)%Q) (x :: l)) 0%Q ((fun w => (w - base)%Q) 0%Q)) by (rewrite map_length; exact Hi). apply (map_nth (fun w => (w - base)%Q)). }
  split; [apply Forall_forall; intros n Hn; apply in_map_iff in Hn; destruct Hn as [y [E _]]; symmetry; exact E|].
  rewrite map_length. split; [exact N|]. split.
  - destruct (In_nth _ _ 0%Q M1) as [i [Hi E]]. exists i. split; [exact Hi|]. rewrite N by exact Hi. rewrite E. lra.
  - intros i Hi. rewrite N by exact Hi. assert (base <= nth i (x :: l) 0)%Q by (apply M2; apply nth_In; exact Hi). lra.
Qed.

Lemma finish_defined : forall m, well_formed m -> exists b, finish_check m (hits_total m) = Some b.
Proof.
  intros m [W0 [W1 [W2 [W3 [W4 [_ [_ [W5|W5]]]]]]]]; rewrite W5.
  - unfold all_visited. eexists. reflexivity.
  - unfold first_last_visited, front, back. destruct (hits_total m) as [|x l] eqn:E; [cbn [length] in W4; lia|].
    destruct (nth_error (x :: l) (length (x :: l) - 1)) as [y|] eqn:Ey; [|apply nth_error_None in Ey; cbn [length] in Ey; lia].
    cbn [nth_error bind]. eexists. reflexivity.
Qed.

Lemma check_finish_spec : forall m, well_formed m ->
  exists done t c, check_finish m = Some (with_C (with_weights m (weights m) t) c) /\ finish_check m (hits_total m) = Some done /\
    length t = length (hits_total m) /\
    (done = true -> Forall (fun n => n = 0%Z) t /\ c = (C m / (3 # 2))%Q) /\ (done = false -> t = hits_total m /\ c = C m).
Proof.
  intros m W. destruct (finish_defined m W) as [b Hb]. unfold check_finish. rewrite Hb. cbn [bind]. exists b.
  destruct W as [W0 [W1 [W2 [W3 [W4 _]]]]]. destruct b.
  - eexists _, _. split; [reflexivity|]. split; [reflexivity|]. rewrite beyond_nil by exact W4. rewrite app_nil_r.
    rewrite firstn_all2 by lia. split; [apply map_length|]. split; [|discriminate]. intros _. split; [|reflexivity].
    apply Forall_forall. intros n Hn. apply in_map_iff in Hn. destruct Hn as [y [E _]]. symmetry. exact E.
  - exists (hits_total m), (C m). split; [destruct m; reflexivity|]. split; [reflexivity|]. split; [reflexivity|]. split; [discriminate|]. intros _. split; reflexivity.
Qed.

(** *** The shape is kept *)

Lemma wf_hits : forall m h, well_formed m -> length h = length (hits m) -> well_formed (with_hits m h).
Proof. intros m h W H. unfold well_formed in *. cbn [limits weights hits hits_total sample_size single_check_interval finish_check with_hits]. rewrite H. exact W. Qed.
Lemma wf_count : forall m n, well_formed m -> well_formed (with_count m n).
Proof. intros m n W. exact W. Qed.
Lemma wf_C : forall m n, well_formed m -> well_formed (with_C m n).
Proof. intros m n W. exact W. Qed.
Lemma wf_weights : forall m w t, well_formed m -> length w = length (weights m) -> length t = length (hits_total m) -> well_formed (with_weights m w t).
Proof.
  intros m w t W H1 H2. unfold well_formed in *. cbn [limits weights hits hits_total sample_size single_check_interval finish_check with_weights].
  rewrite H1, H2. exact W.
Qed.

Lemma bin_hit_defined : forall m x, well_formed m -> exists h, bin_hit_OP_value (limits m) (hits m) x = Some h /\ length h = length (hits m).
Proof.
  intros m x [W0 [W1 [W2 [W3 _]]]]. destruct (bin_all_spec (limits m) [x] (hits m)) as [h [H1 [H2 _]]]; [lia|exact W2|lia|].
  exists h. split; [|exact H2]. cbn [bin_all] in H1. destruct (bin_hit_OP_value (limits m) (hits m) x) as [h0|]; [exact H1|discriminate H1].
Qed.

Lemma goes_on_iff : forall m, goes_on m = true <-> ~ (C m < C_min m)%Q.
Proof.
  intros m. unfold goes_on. destruct (qlt (C m) (C_min m)) eqn:E.
  - apply qlt_iff in E. split; [discriminate|]. intros H. contradiction.
  - apply qlt_false in E. split; [intros _ H; lra|reflexivity].
Qed.

Lemma goes_on_eq : forall m cm, C_min m = cm -> (goes_on m = true <-> ~ (C m < cm)%Q).
Proof. intros m cm <-. apply goes_on_iff. Qed.

(** What the direct method does when a sample is complete. *)
Lemma direct_full : forall m x, well_formed m -> (sample_size m <= count m + 1)%Z ->
  exists h base w w' z t c done,
    bin_hit_OP_value (limits m) (hits m) x = Some h /\ length h = length (weights m) /\
    length w' = length (weights m) /\ length t = length (weights m) /\ length z = length (weights m) /\ Forall (fun n => n = 0%Z) z /\
    (forall i, i < length (weights m) -> nth i w' 0%Q = (nth i w 0 - base)%Q /\
       nth i w 0%Q = (nth i (weights m) 0 + C m * inject_Z (nth i h 0%Z) * inject_Z (Z.of_nat (length (weights m))) / inject_Z (sample_size m))%Q /\ (0 <= nth i w' 0)%Q) /\
    (exists i, i < length (weights m) /\ (nth i w' 0 == 0)%Q) /\
    (exists tot, length tot = length (weights m) /\ (forall i, i < length (weights m) -> nth i tot 0%Z = (nth i (hits_total m) 0 + nth i h 0)%Z) /\
       finish_check m tot = Some done /\
       (done = true -> Forall (fun n => n = 0%Z) t /\ c = (C m / (3 # 2))%Q) /\ (done = false -> t = tot /\ c = C m)) /\
    let m' := mkMuca (limits m) (centers m) w' z t 0 c (C_min m) (sample_size m) (single_check_interval m) (finish_check m) in
    iterate_direct m x = Some (m', goes_on m').
Proof.
  intros m x W Hs. destruct (bin_hit_defined m x W) as [h [H1 H2]].
  assert (Whs : length (hits m) = length (weights m)) by (destruct W as [_ [_ [_ [W3 _]]]]; exact W3).
  assert (Wss : (0 < sample_size m)%Z) by (destruct W as [_ [_ [_ [_ [_ [W5 _]]]]]]; exact W5).
  set (m1 := with_count (with_hits m h) (count m + 1)).
  assert (W1 : well_formed m1) by (apply wf_count; apply wf_hits; [exact W|exact H2]).
  destruct (update_spec (fun w h => (w + C m1 * inject_Z h * inject_Z (Z.of_nat (length (weights m1))) / inject_Z (sample_size m1))%Q) m1 W1) as [w [t0 [U1 [U2 [U3 [U4 U5]]]]]].
  set (m2 := with_weights m1 w t0) in *.
  assert (W2 : well_formed m2) by (apply wf_weights; [exact W1|exact U2|destruct W1 as [_ [_ [_ [_ [W4 _]]]]]; lia]).
  destruct (rebase_spec m2 W2) as [base [w' [z [R1 [R2 [R3 [R4 [R5 [R6 R7]]]]]]]]].
  set (m3 := with_hits (with_weights m2 w' (hits_total m2)) z) in *.
  assert (W3 : well_formed m3).
  { apply wf_hits; [apply wf_weights; [exact W2|exact R2|reflexivity]|]. destruct W2 as [_ [_ [_ [W3 _]]]]. cbn [hits with_weights]. lia. }
  destruct (check_finish_spec (with_count m3 0) (wf_count _ _ W3)) as [done [t [c [F1 [F2 [F3 [F4 F5]]]]]]].
  exists h, base, w, w', z, t, c, done.
  change (weights m1) with (weights m) in *. change (weights m2) with w in *. change (hits m1) with h in *. change (C m1) with (C m) in *. change (sample_size m1) with (sample_size m) in *.
  change (hits_total m1) with (hits_total m) in *. change (hits_total (with_count m3 0)) with t0 in *. change (C (with_count m3 0)) with (C m) in *.
  change (finish_check (with_count m3 0)) with (finish_check m) in *.
  split; [exact H1|]. split; [lia|]. split; [lia|]. split; [lia|]. split; [lia|]. split; [exact R4|]. split.
  { intros i Hi. split; [apply R5; lia|]. split; [apply U4; lia|apply R7; lia]. }
  split; [destruct R6 as [i [I1 I2]]; exists i; split; [lia|exact I2]|]. split.
  { exists t0. split; [lia|]. split; [intros i Hi; apply U5; lia|]. split; [exact F2|]. split; [exact F4|exact F5]. }
  cbv zeta. unfold iterate_direct. rewrite H1. cbn [bind]. fold m1.
  change (sample_size m1) with (sample_size m). change (count m1) with (count m + 1)%Z. rewrite (proj2 (Z.leb_le _ _) Hs).
  rewrite (proj2 (Z.eqb_neq _ _)) by lia. change (weights m1) with (weights m). change (C m1) with (C m). rewrite U1. cbn [bind]. rewrite R1. cbn [bind]. rewrite F1. reflexivity.
Qed.

Lemma direct_more : forall m x, well_formed m -> (count m + 1 < sample_size m)%Z ->
  exists h, bin_hit_OP_value (limits m) (hits m) x = Some h /\ length h = length (weights m) /\
    iterate_direct m x = Some (with_count (with_hits m h) (count m + 1), goes_on m).
Proof.
  intros m x W Hs. destruct (bin_hit_defined m x W) as [h [H1 H2]]. exists h. split; [exact H1|]. split; [destruct W as [_ [_ [_ [W3 _]]]]; lia|].
  unfold iterate_direct. rewrite H1. cbn [bind]. set (m1 := with_count (with_hits m h) (count m + 1)).
  change (sample_size m1) with (sample_size m). change (count m1) with (count m + 1)%Z. rewrite (proj2 (Z.leb_gt _ _) Hs). reflexivity.
Qed.

Lemma direct_step : forall m x, well_formed m ->
  exists m' b, iterate_direct m x = Some (m', b) /\ well_formed m' /\ C_min m' = C_min m /\ (b = true <-> ~ (C m' < C_min m)%Q).
Proof.
  intros m x W. destruct (Z_lt_le_dec (count m + 1) (sample_size m)) as [L|L].
  - destruct (direct_more m x W L) as [h [H1 [H2 H3]]]. eexists _, _. split; [exact H3|].
    split; [apply wf_count; apply wf_hits; [exact W|destruct W as [_ [_ [_ [W3 _]]]]; lia]|]. split; [reflexivity|]. apply (goes_on_iff m).
  - destruct (direct_full m x W L) as [h [base [w [w' [z [t [c [done [_ [H2 [H3 [H4 [H5 [_ [_ [_ [_ H]]]]]]]]]]]]]]]]].
    eexists _, _. split; [exact H|]. split.
    + destruct W as [W0 [W1 [W2 [W3 [W4 W5]]]]]. unfold well_formed. cbn [limits weights hits hits_total sample_size single_check_interval finish_check].
      rewrite H3, H4, H5. split; [exact W0|]. split; [exact W1|]. split; [exact W2|]. split; [reflexivity|]. split; [reflexivity|exact W5].
    + split; [reflexivity|]. apply goes_on_eq; reflexivity.
Qed.

(** *** The smooth method *)

Lemma smooth_hits_defined : forall N i h, length h = N -> i < N -> exists h', smooth_hits N i h = Some h' /\ length h' = N.
Proof.
  intros N i h HN Hi. unfold smooth_hits.
  assert (A : forall b j d (g : list Z), length g = N -> (b = true -> j < N) -> exists g', (if b then add_at j d g else Some g) = Some g' /\ length g' = N).
  { intros b j d g Hg Hb. destruct b; [|exists g; split; [reflexivity|exact Hg]].
    destruct (add_at_spec g j d) as [g' [G1 [G2 _]]]; [specialize (Hb eq_refl); lia|]. exists g'. split; [exact G1|lia]. }
  destruct (A (2 <=? i) (i - 2) 1%Z h HN) as [h1 [E1 L1]]; [intros _; lia|]. rewrite E1. cbn [bind].
  destruct (A (1 <=? i) (i - 1) 3%Z h1 L1) as [h2 [E2 L2]]; [intros _; lia|]. rewrite E2. cbn [bind].
  destruct (A true i 5%Z h2 L2) as [h3 [E3 L3]]; [intros _; lia|]. cbn iota in E3. rewrite E3. cbn [bind].
  destruct (A (Z.of_nat i <? Z.of_nat N - 1)%Z (i + 1) 3%Z h3 L3) as [h4 [E4 L4]]; [intros G; apply Z.ltb_lt in G; lia|]. rewrite E4. cbn [bind].
  destruct (A (Z.of_nat i <? Z.of_nat N - 2)%Z (i + 2) 1%Z h4 L4) as [h5 [E5 L5]]; [intros G; apply Z.ltb_lt in G; lia|]. rewrite E5.
  exists h5. split; [reflexivity|exact L5].
Qed.

Lemma smooth_step : forall m x, well_formed m ->
  exists m' b, iterate_direct_smooth m x = Some (m', b) /\ well_formed m' /\ C_min m' = C_min m /\ (b = true <-> ~ (C m' < C_min m)%Q).
Proof.
  intros m x W. pose proof W as [W0 [W1 [W2 [W3 [W4 _]]]]]. unfold iterate_direct_smooth.
  assert (H : exists h, bind (find_OP_bin_index x (limits m)) (fun b => match b with None => Some (hits m) | Some i => smooth_hits (length (weights m)) i (hits m) end) = Some h /\ length h = length (hits m)).
  { destruct (find_bin_spec (limits m) x ltac:(lia) W2) as [[H1 _]|[i [H1 [_ [_ H4]]]]]; rewrite H1; cbn [bind].
    - exists (hits m). split; reflexivity.
    - destruct (smooth_hits_defined (length (weights m)) i (hits m) W3 ltac:(lia)) as [h [G1 G2]]. exists h. split; [exact G1|lia]. }
  destruct H as [h [H1 H2]]. destruct (find_OP_bin_index x (limits m)) as [b|]; [|discriminate H1]. cbn [bind] in H1 |- *. rewrite H1. cbn [bind].
  set (m1 := with_count (with_hits m h) (count m + 1)).
  assert (Wm1 : well_formed m1) by (apply wf_count; apply wf_hits; assumption).
  destruct (sample_size m1 <=? count m1)%Z.
  - destruct (ends (map inject_Z (hits m1))) as [f [e [E1 _]]]; [rewrite map_length; change (hits m1) with h; lia|].
    unfold front in E1 |- *. destruct (nth_error (hits m1) 0) as [h0|] eqn:Eh; [|apply nth_error_None in Eh; change (hits m1) with h in Eh; lia]. cbn [bind]. clear E1.
    destruct (update_spec (fun w h => (w + C m1 * inject_Z (h - h0) / inject_Z (Z.of_nat (length (weights m))))%Q) m1 Wm1) as [w [t0 [U1 [U2 [U3 _]]]]].
    rewrite U1. cbn [bind]. set (m2 := with_weights m1 w t0).
    assert (Wm2 : well_formed m2) by (apply wf_weights; [exact Wm1|exact U2|change (hits_total m1) with (hits_total m); change (weights m1) with (weights m) in U3; lia]).
    set (m3 := with_count (with_hits m2 (map (fun _ => 0%Z) (weights m2) ++ beyond (weights m2) (hits m2))) 0).
    assert (Wm3 : well_formed m3).
    { apply wf_count. apply wf_hits; [exact Wm2|]. destruct Wm2 as [_ [_ [_ [V3 _]]]]. rewrite beyond_nil by exact V3. rewrite app_nil_r, map_length. lia. }
    destruct (check_finish_spec m3 Wm3) as [done [t [c [F1 [F2 [F3 _]]]]]]. rewrite F1. cbn [bind].
    eexists _, _. split; [reflexivity|]. split; [apply wf_C; apply wf_weights; [exact Wm3|reflexivity|exact F3]|]. split; [reflexivity|].
    apply goes_on_eq; reflexivity.
  - cbn [bind]. eexists _, _. split; [reflexivity|]. split; [exact Wm1|]. split; [reflexivity|]. apply (goes_on_iff m1).
Qed.

(** *** The single method *)

Lemma put_nth_q : forall i v (l : list Q) j, i < length l -> nth j (put i v l) 0%Q = if Nat.eqb j i then v else nth j l 0%Q.
Proof.
  induction i as [|i IH]; intros v l j Hi; destruct l as [|y l]; cbn [length] in Hi; try lia; destruct j as [|j]; cbn [put nth Nat.eqb]; try reflexivity.
  apply IH. lia.
Qed.

Lemma single_step : forall m x, well_formed m ->
  exists m' a, iterate_direct_single m x = Some (m', a) /\ well_formed m' /\ C_min m' = C_min m /\
    (a = None <-> ~ (single_check_interval m | count m + 1)%Z) /\
    (forall b, a = Some b -> (b = true <-> ~ (C m' < C_min m)%Q)) /\
    exists base, (a = None -> base = 0%Q) /\
      forall i, i < length (weights m) ->
        (in_range (limits m) x /\ in_bin (limits m) i x -> (nth i (weights m') 0 == nth i (weights m) 0 + C m - base)%Q) /\
        (~ (in_range (limits m) x /\ in_bin (limits m) i x) -> (nth i (weights m') 0 == nth i (weights m) 0 - base)%Q) /\
        (a <> None -> (0 <= nth i (weights m') 0)%Q).
Proof.
  intros m x W. pose proof W as [W0 [W1 [W2 [W3 [W4 [W5 [W6 W7]]]]]]]. unfold iterate_direct_single.
  assert (H : exists w t, bind (find_OP_bin_index x (limits m)) (fun b => match b with None => Some m | Some i =>
               bind (add_at i 1 (hits_total m)) (fun t => bind (nth_error (weights m) i) (fun w => Some (with_weights m (put i (w + C m)%Q (weights m)) t))) end) = Some (with_weights m w t) /\
             length w = length (weights m) /\ length t = length (hits_total m) /\
             forall i, i < length (weights m) ->
               (in_range (limits m) x /\ in_bin (limits m) i x -> nth i w 0%Q = (nth i (weights m) 0 + C m)%Q) /\
               (~ (in_range (limits m) x /\ in_bin (limits m) i x) -> nth i w 0%Q = nth i (weights m) 0%Q)).
  { destruct (find_bin_spec (limits m) x ltac:(lia) W2) as [[H1 H2]|[i [H1 [H2 [H3 H4]]]]]; rewrite H1; cbn [bind].
    - exists (weights m), (hits_total m). split; [destruct m; reflexivity|]. split; [reflexivity|]. split; [reflexivity|].
      intros i Hi. split; [intros [H _]; contradiction|reflexivity].
    - destruct (add_at_spec (hits_total m) i 1) as [t [T1 [T2 _]]]; [lia|]. rewrite T1. cbn [bind].
      rewrite (nth_error_nth' (weights m) 0%Q) by lia. cbn [bind].
      eexists _, t. split; [reflexivity|]. split; [apply put_length|]. split; [exact T2|].
      intros j Hj. rewrite put_nth_q by lia. destruct (Nat.eqb_spec j i) as [E|Hne]; [subst j|].
      + split; [reflexivity|]. intros H. exfalso. apply H. split; assumption.
      + split; [|reflexivity]. intros [_ H]. exfalso. apply Hne. apply (in_bin_unique (limits m) x); assumption. }
  destruct H as [w [t [H1 [H2 [H3 H4]]]]]. destruct (find_OP_bin_index x (limits m)) as [b|]; [|discriminate H1]. cbn [bind] in H1 |- *. rewrite H1. cbn [bind].
  set (m1 := with_count (with_weights m w t) (count (with_weights m w t) + 1)).
  assert (Wm1 : well_formed m1) by (apply wf_count; apply wf_weights; assumption).
  change (single_check_interval m1) with (single_check_interval m). change (count m1) with (count m + 1)%Z.
  rewrite (proj2 (Z.eqb_neq _ _)) by lia.
  destruct (Z.eqb_spec (Z.rem (count m + 1) (single_check_interval m)) 0) as [E|E].
  - destruct (rebase_spec m1 Wm1) as [base [w' [z [R1 [R2 [R3 [R4 [R5 [R6 R7]]]]]]]]]. rewrite R1. cbn [bind].
    set (m2 := with_hits (with_weights m1 w' (hits_total m1)) z).
    assert (Wm2 : well_formed m2).
    { apply wf_hits; [apply wf_weights; [exact Wm1|exact R2|reflexivity]|]. destruct Wm1 as [_ [_ [_ [V3 _]]]]. cbn [hits with_weights]. lia. }
    destruct (check_finish_spec m2 Wm2) as [done [t' [c [F1 [F2 [F3 _]]]]]]. rewrite F1. cbn [bind].
    eexists _, _. split; [reflexivity|]. split; [apply wf_C; apply wf_weights; [exact Wm2|reflexivity|exact F3]|]. split; [reflexivity|]. split.
    + split; [discriminate|]. intros H. exfalso. apply H. apply Z.rem_divide; [lia|exact E].
    + split; [intros b' Hb'; injection Hb' as <-; apply goes_on_eq; reflexivity|].
      exists base. split; [discriminate|]. cbn [weights with_C with_weights m2 with_hits].
      change (weights m1) with w in R2, R5. intros i Hi. destruct (H4 i Hi) as [G1 G2]. rewrite R5 by lia. split; [|split].
      * intros G. rewrite G1 by exact G. reflexivity.
      * intros G. rewrite G2 by exact G. reflexivity.
      * intros _. rewrite <- R5 by lia. apply R7. lia.
  - eexists _, _. split; [reflexivity|]. split; [exact Wm1|]. split; [reflexivity|]. split.
    + split; [|reflexivity]. intros _ H. apply E. apply Z.rem_divide; [lia|exact H].
    + split; [discriminate|]. exists 0%Q. split; [reflexivity|]. intros i Hi. cbn [weights m1 with_count with_weights]. destruct (H4 i Hi) as [G1 G2]. split; [|split].
      * intros G. rewrite G1 by exact G. ring.
      * intros G. rewrite G2 by exact G. ring.
      * intros G. exfalso. apply G. reflexivity.
Qed.

(** *** Histories *)

Lemma run_defined : forall {A : Type} (step : muca -> Q -> option (muca * A)) (I : muca -> Prop),
  (forall m x, I m -> exists m' a, step m x = Some (m', a) /\ I m') ->
  forall xs m, I m -> exists m' l, run step m xs = Some (m', l) /\ I m' /\ length l = length xs.
Proof.
  intros A step I Hstep. induction xs as [|x xs IH]; intros m Hm; cbn [run].
  - exists m, []. split; [reflexivity|]. split; [exact Hm|reflexivity].
  - destruct (Hstep m x Hm) as [m1 [a [E1 I1]]]. rewrite E1. cbn [bind fst snd].
    destruct (IH m1 I1) as [m' [l [E2 [I2 L2]]]]. rewrite E2. cbn [bind fst snd]. exists m', (a :: l). split; [reflexivity|]. split; [exact I2|]. cbn [length]. lia.
Qed.

Lemma run_app : forall {A : Type} (step : muca -> Q -> option (muca * A)) xs ys m m1 l1 m2 l2,
  run step m xs = Some (m1, l1) -> run step m1 ys = Some (m2, l2) -> run step m (xs ++ ys) = Some (m2, l1 ++ l2).
Proof.
  intros A step. induction xs as [|x xs IH]; intros ys m m1 l1 m2 l2 H1 H2; cbn [run app] in *.
  - injection H1 as <- <-. exact H2.
  - destruct (step m x) as [[m' a]|]; [|discriminate H1]. cbn [bind fst snd] in *.
    destruct (run step m' xs) as [[m'' l]|] eqn:E; [|discriminate H1]. cbn [bind fst snd] in *. injection H1 as <- <-.
    rewrite (IH ys m' m'' l m2 l2 E H2). reflexivity.
Qed.

Lemma bin_all_app : forall l xs ys h h1, bin_all l h xs = Some h1 -> bin_all l h (xs ++ ys) = bin_all l h1 ys.
Proof.
  intros l. induction xs as [|x xs IH]; intros ys h h1 H; cbn [bin_all app] in *; [injection H as <-; reflexivity|].
  destruct (bin_hit_OP_value l h x) as [h'|]; [|discriminate H]. cbn [bind] in *. apply IH. exact H.
Qed.

Lemma direct_partial_sample : forall xs m, well_formed m -> (count m + Z.of_nat (length xs) < sample_size m)%Z ->
  exists h, bin_all (limits m) (hits m) xs = Some h /\ length h = length (weights m) /\
    run iterate_direct m xs = Some (with_count (with_hits m h) (count m + Z.of_nat (length xs)), repeat (goes_on m) (length xs)).
Proof.
  induction xs as [|x xs IH]; intros m W Hs; cbn [bin_all run repeat length].
  - exists (hits m). split; [reflexivity|]. split; [apply W|]. destruct m. cbn. rewrite Z.add_0_r. reflexivity.
  - cbn [length] in Hs. destruct (direct_more m x W ltac:(lia)) as [h [H1 [H2 H3]]]. rewrite H1. cbn [bind].
    set (m1 := with_count (with_hits m h) (count m + 1)) in *.
    assert (W1 : well_formed m1) by (apply wf_count; apply wf_hits; [exact W|destruct W as [_ [_ [_ [W3 _]]]]; lia]).
    destruct (IH m1 W1) as [h' [G1 [G2 G3]]]; [change (count m1) with (count m + 1)%Z; change (sample_size m1) with (sample_size m); lia|].
    exists h'. split; [exact G1|]. split; [exact G2|]. rewrite H3. cbn [bind fst snd]. rewrite G3. cbn [bind fst snd].
    replace (count m + Z.of_nat (S (length xs)))%Z with (count m1 + Z.of_nat (length xs))%Z by (change (count m1) with (count m + 1)%Z; lia).
    reflexivity.
Qed.

(** A whole sample of the direct method. *)
Lemma direct_sample : forall m xs, well_formed m -> count m = 0%Z -> Forall (fun n => n = 0%Z) (hits m) -> Z.of_nat (length xs) = sample_size m ->
  exists m' l ns base done tot,
    run iterate_direct m xs = Some (m', l) /\ length ns = length (weights m) /\
    (forall i, i < length (weights m) -> counts (fun x => in_range (limits m) x /\ in_bin (limits m) i x) xs (nth i ns 0%Z)) /\
    counts (in_range (limits m)) xs (zsum ns) /\
    length (weights m') = length (weights m) /\ count m' = 0%Z /\ length (hits m') = length (weights m) /\ Forall (fun n => n = 0%Z) (hits m') /\
    (forall i, i < length (weights m) ->
       (nth i (weights m') 0 == nth i (weights m) 0 + C m * inject_Z (nth i ns 0%Z) * inject_Z (Z.of_nat (length (weights m))) / inject_Z (sample_size m) - base)%Q /\ (0 <= nth i (weights m') 0)%Q) /\
    (exists i, i < length (weights m) /\ (nth i (weights m') 0 == 0)%Q) /\
    length tot = length (weights m) /\ (forall i, i < length (weights m) -> nth i tot 0%Z = (nth i (hits_total m) 0 + nth i ns 0)%Z) /\
    finish_check m tot = Some done /\
    (done = true -> Forall (fun n => n = 0%Z) (hits_total m') /\ (C m' == C m / (3 # 2))%Q) /\ (done = false -> hits_total m' = tot /\ C m' = C m).
Proof.
  intros m xs W Hc Hh Hs. assert (Hpos : (0 < sample_size m)%Z) by (destruct W as [_ [_ [_ [_ [_ [W5 _]]]]]]; exact W5).
  destruct (exists_last (l := xs)) as [ys [x E]]; [intros ->; cbn [length] in Hs; lia|].
  assert (Hy : (count m + Z.of_nat (length ys) + 1 = sample_size m)%Z) by (rewrite E, app_length in Hs; cbn [length] in Hs; lia).
  destruct (direct_partial_sample ys m W ltac:(lia)) as [h1 [B1 [B2 B3]]].
  set (m1 := with_count (with_hits m h1) (count m + Z.of_nat (length ys))) in *.
  assert (W1 : well_formed m1) by (apply wf_count; apply wf_hits; [exact W|destruct W as [_ [_ [_ [W3 _]]]]; lia]).
  destruct (direct_full m1 x W1) as [h [base [w [w' [z [t [c [done [D1 [D2 [D3 [D4 [D5 [D6 [D7 [D8 [D9 D10]]]]]]]]]]]]]]]]].
  { change (sample_size m1) with (sample_size m). change (count m1) with (count m + Z.of_nat (length ys))%Z. lia. }
  change (weights m1) with (weights m) in *. change (limits m1) with (limits m) in *. change (hits m1) with h1 in *. change (C m1) with (C m) in *.
  change (sample_size m1) with (sample_size m) in *. change (hits_total m1) with (hits_total m) in *. change (finish_check m1) with (finish_check m) in *.
  destruct D9 as [tot [T1 [T2 [T3 [T4 T5]]]]]. cbv zeta in D10.
  assert (Hall : bin_all (limits m) (hits m) xs = Some h) by (rewrite E, (bin_all_app _ _ _ _ _ B1); cbn [bin_all]; rewrite D1; reflexivity).
  destruct (bin_all_spec (limits m) xs (hits m)) as [h' [G1 [G2 [G3 G4]]]]; [destruct W as [_ [A1 _]]; lia|apply W|destruct W as [_ [A1 [_ [A2 _]]]]; lia|].
  assert (h' = h) by congruence. subst h'.
  assert (Z0 : forall i, nth i (hits m) 0%Z = 0%Z).
  { intros i. destruct (Nat.lt_ge_cases i (length (hits m))) as [L|L]; [|apply nth_overflow; lia]. apply (proj1 (Forall_forall _ _) Hh). apply nth_In. exact L. }
  assert (Zs : zsum (hits m) = 0%Z).
  { clear - Hh. induction Hh as [|n l Hn Hl IH]; [reflexivity|]. change (zsum (n :: l)) with (n + zsum l)%Z. lia. }
  eexists _, _, h, base, done, tot.
  split; [rewrite E; eapply run_app; [exact B3|cbn [run]; rewrite D10; reflexivity]|].
  cbn [fst snd weights count hits hits_total C]. split; [exact D2|]. split.
  { intros i Hi. specialize (G3 i). rewrite Z0, Z.sub_0_r in G3. apply G3. destruct W as [_ [_ [_ [A2 _]]]]. lia. }
  split; [rewrite Zs, Z.sub_0_r in G4; exact G4|]. split; [exact D3|]. split; [reflexivity|]. split; [exact D5|]. split; [exact D6|]. split.
  { intros i Hi. destruct (D7 i Hi) as [Q1 [Q2 Q3]]. split; [|exact Q3]. rewrite Q1, Q2. reflexivity. }
  split; [exact D8|]. split; [exact T1|]. split; [exact T2|]. split; [exact T3|]. split; [|exact T5].
  intros Hd. destruct (T4 Hd) as [Y1 Y2]. split; [exact Y1|]. rewrite Y2. reflexivity.
Qed.

(** *** The canonical method *)

Lemma normalise_nth : forall can lim i, S i < length can -> length lim = length can + 1 ->
  nth i (normalise can lim) 0%Q = (nth i can 0 / (nth (S i) lim 0 - nth i lim 0))%Q.
Proof.
  induction can as [|c can IH]; intros lim i Hi Hl; [cbn [length] in Hi; lia|].
  destruct can as [|c' can]; [cbn [length] in Hi; lia|]. destruct lim as [|a [|b lim]]; [cbn [length] in Hl; lia|cbn [length] in Hl; lia|].
  change (normalise (c :: c' :: can) (a :: b :: lim)) with ((c / (b - a))%Q :: normalise (c' :: can) (b :: lim)).
  destruct i as [|i]; [reflexivity|]. change (nth (S i) ((c / (b - a))%Q :: normalise (c' :: can) (b :: lim)) 0%Q) with (nth i (normalise (c' :: can) (b :: lim)) 0%Q).
  rewrite IH; [reflexivity|cbn [length] in *; lia|cbn [length] in *; lia].
Qed.

Lemma normalise_length : forall can lim, length (normalise can lim) = length can.
Proof.
  induction can as [|c can IH]; intros lim; [reflexivity|]. destruct can as [|c' can]; [reflexivity|]. destruct lim as [|a [|b lim]]; [reflexivity|reflexivity|].
  change (normalise (c :: c' :: can) (a :: b :: lim)) with ((c / (b - a))%Q :: normalise (c' :: can) (b :: lim)). cbn [length] in *. rewrite IH. reflexivity.
Qed.

Lemma canonical_loop_spec : forall ln mh hs h0 c0 p0 w0 gs can wp, length gs = length hs -> length can = length hs -> length wp = length hs ->
  exists ws g', canonical_loop ln mh h0 c0 p0 w0 hs gs can wp = Some (ws, g') /\ length ws = length hs /\ length g' = length hs /\
    forall i, i < length hs -> canonical_rule ln mh (nth i (h0 :: hs) 0%Z) (nth i hs 0%Z) (nth i gs 0%Z) (nth i (c0 :: can) 0%Q) (nth i can 0%Q)
      (nth i (p0 :: wp) 0%Q) (nth i wp 0%Q) (nth i (w0 :: ws) 0%Q) (nth i ws 0%Q) (nth i g' 0%Z).
Proof.
  intros ln mh. induction hs as [|h hs IH]; intros h0 c0 p0 w0 gs can wp H1 H2 H3;
    destruct gs as [|g gs]; destruct can as [|c can]; destruct wp as [|p wp]; cbn [length] in H1, H2, H3; try lia; cbn [canonical_loop].
  - exists [], []. split; [reflexivity|]. split; [reflexivity|]. split; [reflexivity|]. intros i Hi. cbn [length] in Hi. lia.
  - set (wg := if ((mh <=? h) && (mh <=? h0))%Z then _ else _). destruct wg as [w g1] eqn:Ewg.
    destruct (IH h c p w gs can wp ltac:(lia) ltac:(lia) ltac:(lia)) as [ws [g' [E [L1 [L2 R]]]]]. rewrite E. cbn [bind fst snd].
    exists (w :: ws), (g1 :: g'). split; [reflexivity|]. split; [cbn [length]; lia|]. split; [cbn [length]; lia|].
    intros [|i] Hi; [|cbn [nth] in *; apply R; cbn [length] in Hi; lia]. cbn [nth]. unfold wg in Ewg. clear wg IH R E. unfold canonical_rule.
    destruct (Z.leb_spec mh h) as [A|A]; destruct (Z.leb_spec mh h0) as [B|B]; cbn [andb] in Ewg; injection Ewg as <- <-.
    + split; [|intros G; exfalso; apply G; split; assumption]. intros _. split; [reflexivity|].
      assert (Ex : ((p - p0) * inject_Z g + - inject_Z (h + h0) * ln (c0 / c) == (p - p0) * inject_Z g - inject_Z (h + h0) * ln (c0 / c))%Q) by ring.
      rewrite Ex. reflexivity.
    + split; [intros [? ?]; lia|]. intros _. split; [reflexivity|]. ring.
    + split; [intros [? ?]; lia|]. intros _. split; [reflexivity|]. ring.
    + split; [intros [? ?]; lia|]. intros _. split; [reflexivity|]. ring.
Qed.

(** *** What the smooth method does *)

Lemma smooth_hits_spec : forall N i h, length h = N -> i < N ->
  exists h', smooth_hits N i h = Some h' /\ length h' = N /\ forall j, j < N -> nth j h' 0%Z = (nth j h 0 + smooth_kernel i j)%Z.
Proof.
  intros N i h HN Hi. unfold smooth_hits.
  assert (A : forall (b : bool) j d (g : list Z), length g = N -> (b = true -> j < N) ->
     exists g', (if b then add_at j d g else Some g) = Some g' /\ length g' = N /\ forall k, nth k g' 0%Z = (nth k g 0 + (if b && Nat.eqb k j then d else 0))%Z).
  { intros b j d g Hg Hb. destruct b; [|exists g; split; [reflexivity|split; [exact Hg|intros k; cbn [andb]; lia]]].
    destruct (add_at_spec g j d) as [g' [G1 [G2 [_ G3]]]]; [specialize (Hb eq_refl); lia|]. exists g'. split; [exact G1|]. split; [lia|]. intros k. apply G3. }
  destruct (A (2 <=? i) (i - 2) 1%Z h HN) as [h1 [E1 [L1 K1]]]; [intros _; lia|]. rewrite E1. cbn [bind].
  destruct (A (1 <=? i) (i - 1) 3%Z h1 L1) as [h2 [E2 [L2 K2]]]; [intros _; lia|]. rewrite E2. cbn [bind].
  destruct (A true i 5%Z h2 L2) as [h3 [E3 [L3 K3]]]; [intros _; lia|]. cbn iota in E3. rewrite E3. cbn [bind].
  destruct (A (Z.of_nat i <? Z.of_nat N - 1)%Z (i + 1) 3%Z h3 L3) as [h4 [E4 [L4 K4]]]; [intros G; apply Z.ltb_lt in G; lia|]. rewrite E4. cbn [bind].
  destruct (A (Z.of_nat i <? Z.of_nat N - 2)%Z (i + 2) 1%Z h4 L4) as [h5 [E5 [L5 K5]]]; [intros G; apply Z.ltb_lt in G; lia|]. rewrite E5.
  exists h5. split; [reflexivity|]. split; [exact L5|]. intros j Hj. rewrite K5, K4, K3, K2, K1. unfold smooth_kernel. clear - Hi Hj.
  destruct (Nat.leb_spec 2 i); destruct (Nat.leb_spec 1 i); destruct (Z.ltb_spec (Z.of_nat i) (Z.of_nat N - 1)); destruct (Z.ltb_spec (Z.of_nat i) (Z.of_nat N - 2));
  destruct (Nat.eqb_spec j (i - 2)); destruct (Nat.eqb_spec j (i - 1)); destruct (Nat.eqb_spec j i); destruct (Nat.eqb_spec j (i + 1)); destruct (Nat.eqb_spec j (i + 2));
  try lia; cbn [andb];
  destruct (Z.abs (Z.of_nat j - Z.of_nat i)) as [|[p|[p|p|]|]|p] eqn:E; lia.
Qed.

Lemma smooth_full : forall m x, well_formed m ->
  exists h m' b, length h = length (weights m) /\
    (forall j, j < length (weights m) ->
       (forall i, in_range (limits m) x /\ in_bin (limits m) i x -> nth j h 0%Z = (nth j (hits m) 0 + smooth_kernel i j)%Z) /\
       (~ in_range (limits m) x -> nth j h 0%Z = nth j (hits m) 0%Z)) /\
    iterate_direct_smooth m x = Some (m', b) /\
    ((count m + 1 < sample_size m)%Z -> weights m' = weights m /\ hits m' = h /\ count m' = (count m + 1)%Z) /\
    ((sample_size m <= count m + 1)%Z -> length (weights m') = length (weights m) /\ Forall (fun n => n = 0%Z) (hits m') /\ count m' = 0%Z /\
       forall j, j < length (weights m) ->
         (nth j (weights m') 0 == nth j (weights m) 0 + C m * inject_Z (nth j h 0%Z - nth 0 h 0%Z) / inject_Z (Z.of_nat (length (weights m))))%Q).
Proof.
  intros m x W. pose proof W as [W0 [W1 [W2 [W3 [W4 _]]]]]. unfold iterate_direct_smooth.
  assert (H : exists h, bind (find_OP_bin_index x (limits m)) (fun b => match b with None => Some (hits m) | Some i => smooth_hits (length (weights m)) i (hits m) end) = Some h /\ length h = length (hits m) /\
    (forall j, j < length (weights m) ->
       (forall i, in_range (limits m) x /\ in_bin (limits m) i x -> nth j h 0%Z = (nth j (hits m) 0 + smooth_kernel i j)%Z) /\
       (~ in_range (limits m) x -> nth j h 0%Z = nth j (hits m) 0%Z))).
  { destruct (find_bin_spec (limits m) x ltac:(lia) W2) as [[H1 H2]|[i [H1 [H2 [H3 H4]]]]]; rewrite H1; cbn [bind].
    - exists (hits m). split; [reflexivity|]. split; [reflexivity|]. intros j Hj. split; [intros i [H _]; contradiction|reflexivity].
    - destruct (smooth_hits_spec (length (weights m)) i (hits m) W3 ltac:(lia)) as [h [G1 [G2 G3]]]. exists h. split; [exact G1|]. split; [lia|].
      intros j Hj. split; [|intros G; contradiction]. intros i' [_ Hi']. assert (i' = i) by (apply (in_bin_unique (limits m) x); assumption). subst i'. apply G3. exact Hj. }
  destruct H as [h [H1 [H2 Hh]]]. destruct (find_OP_bin_index x (limits m)) as [b|]; [|discriminate H1]. cbn [bind] in H1 |- *. rewrite H1. cbn [bind].
  set (m1 := with_count (with_hits m h) (count m + 1)).
  assert (Wm1 : well_formed m1) by (apply wf_count; apply wf_hits; assumption).
  change (sample_size m1) with (sample_size m). change (count m1) with (count m + 1)%Z. change (hits m1) with h.
  destruct (Z.leb_spec (sample_size m) (count m + 1)) as [L|L].
  - unfold front. destruct (nth_error h 0) as [h0|] eqn:Eh; [|apply nth_error_None in Eh; lia]. cbn [bind].
    assert (Eh0 : nth 0 h 0%Z = h0) by (apply nth_error_nth; exact Eh).
    destruct (update_spec (fun w h => (w + C m1 * inject_Z (h - h0) / inject_Z (Z.of_nat (length (weights m))))%Q) m1 Wm1) as [w [t0 [U1 [U2 [U3 [U4 _]]]]]].
    rewrite U1. cbn [bind]. set (m2 := with_weights m1 w t0).
    assert (Wm2 : well_formed m2) by (apply wf_weights; [exact Wm1|exact U2|change (hits_total m1) with (hits_total m); change (weights m1) with (weights m) in U3; lia]).
    assert (V3 : length (hits m2) = length (weights m2)) by (destruct Wm2 as [_ [_ [_ [V3 _]]]]; exact V3).
    rewrite beyond_nil by exact V3. rewrite app_nil_r.
    set (m3 := with_count (with_hits m2 (map (fun _ => 0%Z) (weights m2))) 0).
    assert (Wm3 : well_formed m3) by (apply wf_count; apply wf_hits; [exact Wm2|rewrite map_length; lia]).
    destruct (check_finish_spec m3 Wm3) as [done [t [c [F1 [F2 [F3 _]]]]]]. rewrite F1. cbn [bind].
    exists h. eexists _, _. split; [lia|]. split; [exact Hh|]. split; [reflexivity|]. split; [lia|]. intros _.
    change (weights m1) with (weights m) in *. change (hits m1) with h in *. change (C m1) with (C m) in *.
    cbn [weights hits count with_C with_weights m3 with_count with_hits m2]. split; [exact U2|]. split.
    { apply Forall_forall. intros n Hn. apply in_map_iff in Hn. destruct Hn as [y [E _]]. symmetry. exact E. }
    split; [reflexivity|]. intros j Hj. rewrite U4 by lia. rewrite Eh0. reflexivity.
  - exists h. eexists _, _. split; [lia|]. split; [exact Hh|]. cbn [bind]. split; [reflexivity|]. split; [|lia]. intros _. split; [reflexivity|]. split; reflexivity.
Qed.
