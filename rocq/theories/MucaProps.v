(** C39, C40, C42, C56, C57: the multicanonical tools. *)
From Coq Require Import QArith Lqa.
From Verif Require Import Common RandomModel SrcbufModel MucaModel MucaSpec MucaProofs1 MucaProofs2.
Open Scope nat_scope.

Definition ex_limits : list Q := [0; 1; 3; 4]%Q.
Lemma ex_limits_increasing : increasing ex_limits.
Proof.
  intros [|[|[|[|i]]]] a b Ha Hb; cbn in Ha, Hb; try discriminate; try (injection Ha as <-; injection Hb as <-; lra).
  all: destruct i; discriminate.
Qed.

(** *** C39 *)

(** A value has a bin if and only if it is strictly between the first and the last limit, and the bin
    is the one whose limits enclose it. *)
Theorem C39_bin : forall limits x, 0 < length limits -> increasing limits ->
  (find_OP_bin_index x limits = Some None <-> ~ in_range limits x) /\
  (forall i, find_OP_bin_index x limits = Some (Some i) <-> in_range limits x /\ in_bin limits i x).
Proof. exact find_bin_iff. Qed.
Print Assumptions C39_bin.

(** Every value in range has exactly one bin. *)
Theorem C39_one_bin : forall limits x, increasing limits -> in_range limits x ->
  exists i, in_bin limits i x /\ S i < length limits /\ forall j, in_bin limits j x -> j = i.
Proof.
  intros l x Hl Hr. assert (Hlen : 0 < length l) by (destruct Hr as [a [b [H _]]]; destruct l; [discriminate H|cbn [length]; lia]).
  destruct (find_bin_spec l x Hlen Hl) as [[_ H]|[i [_ [_ [H3 H4]]]]]; [contradiction|].
  exists i. split; [exact H3|]. split; [exact H4|]. intros j Hj. apply (in_bin_unique l x); assumption.
Qed.
Print Assumptions C39_one_bin.

(** Over every history each counter grows by the number of values in its bin, and all together by
    the number of values in range. *)
Theorem C39_hits : forall limits hits xs, increasing limits -> 0 < length limits -> length hits + 1 = length limits ->
  exists hits', bin_all limits hits xs = Some hits' /\ length hits' = length hits /\
    (forall i, i < length hits -> counts (fun x => in_range limits x /\ in_bin limits i x) xs (nth i hits' 0 - nth i hits 0)%Z) /\
    counts (in_range limits) xs (zsum hits' - zsum hits)%Z.
Proof. intros l h xs H1 H2 H3. apply bin_all_spec; assumption. Qed.
Print Assumptions C39_hits.

(** Values at limits: the first and the last limit are counted nowhere, an inner one in the bin below. *)
Example C39_example :
  map (fun x => find_OP_bin_index x ex_limits) [0; 1; 2; 3; 4; 7 # 2; -1]%Q =
    [Some None; Some (Some 0); Some (Some 1); Some (Some 1); Some None; Some (Some 2); Some None] /\
  bin_all ex_limits [0; 0; 0]%Z [0; 1; 2; 3; 4; 7 # 2; -1]%Q = Some [1; 2; 1]%Z /\
  increasing ex_limits.
Proof. split; [reflexivity|]. split; [reflexivity|]. exact ex_limits_increasing. Qed.

(** *** C40 *)

(** The weight at a bin centre is the weight of the bin: for all centres without hard walls, for all
    but the first and the last with hard walls. *)
Theorem C40_centre : forall hard centers weights i c w, length weights = length centers -> increasing centers ->
  nth_error centers i = Some c -> nth_error weights i = Some w -> (hard = false \/ (0 < i /\ S i < length centers)) ->
  exists v, weight_function hard centers weights c = Some (Fin v) /\ (v == w)%Q.
Proof. exact weight_centre. Qed.
Print Assumptions C40_centre.

(** With hard walls the first and the last centre do not have the weight of their bin. *)
Theorem C40_centre_refuted : exists centers weights i c w,
  length weights = length centers /\ increasing centers /\ nth_error centers i = Some c /\ nth_error weights i = Some w /\
  weight_function true centers weights c = Some Inf.
Proof.
  exists ex_limits, [5; 6; 7; 8]%Q, 0, 0%Q, 5%Q. split; [reflexivity|]. split; [exact ex_limits_increasing|]. split; [reflexivity|]. split; reflexivity.
Qed.
Print Assumptions C40_centre_refuted.

(** Between two adjacent centres the weight is linear and between the two weights. *)
Theorem C40_linear : forall hard centers weights x i c0 c1 w0 w1, length weights = length centers -> increasing centers ->
  nth_error centers i = Some c0 -> nth_error centers (S i) = Some c1 -> nth_error weights i = Some w0 -> nth_error weights (S i) = Some w1 ->
  (c0 <= x)%Q -> (x <= c1)%Q -> (hard = false \/ in_range centers x) ->
  exists v, weight_function hard centers weights x = Some (Fin v) /\
    ((v - w0) * (c1 - c0) == (x - c0) * (w1 - w0))%Q /\
    ((w0 <= v)%Q /\ (v <= w1)%Q \/ (w1 <= v)%Q /\ (v <= w0)%Q).
Proof.
  intros hard cs ws x i c0 c1 w0 w1 Hw Hl C0 C1 W0 W1 H0 H1 Hr.
  destruct (weight_linear hard cs ws x i c0 c1 w0 w1 Hw Hl C0 C1 W0 W1 H0 H1 Hr) as [v [V1 V2]].
  assert (Hc : (c0 < c1)%Q) by (apply (Hl i); assumption).
  exists v. split; [exact V1|]. split; [rewrite V2; apply linear_mul; exact Hc|].
  destruct (Qlt_le_dec w0 w1) as [L|L].
  - left. apply (linear_between x c0 c1 w0 w1 v w0 w1 Hc H0 H1 V2); lra.
  - right. apply (linear_between x c0 c1 w0 w1 v w1 w0 Hc H0 H1 V2); lra.
Qed.
Print Assumptions C40_linear.

(** At and beyond the end centres the weight is that of the end bin, or infinite with hard walls. *)
Theorem C40_outside : forall hard centers weights x f b wf wb, length weights = length centers -> increasing centers ->
  nth_error centers 0 = Some f -> nth_error centers (length centers - 1) = Some b ->
  nth_error weights 0 = Some wf -> nth_error weights (length weights - 1) = Some wb ->
  ((x <= f)%Q -> weight_function hard centers weights x = Some (if hard then Inf else Fin wf)) /\
  ((b <= x)%Q -> (f < b)%Q -> weight_function hard centers weights x = Some (if hard then Inf else Fin wb)).
Proof.
  intros hard cs ws x f b wf wb Hw Hl F B WF WB. assert (Hlen : 0 < length cs) by (destruct cs; [discriminate F|cbn [length]; lia]).
  destruct (weight_function_spec hard cs ws x Hlen Hw Hl) as [f' [b' [wf' [wb' [F' [B' [WF' [WB' H]]]]]]]].
  assert (f' = f) by congruence. assert (b' = b) by congruence. assert (wf' = wf) by congruence. assert (wb' = wb) by congruence. subst.
  split.
  - intros Hx. destruct H as [[_ H]|[[_ [H _]]|[H _]]]; [exact H|lra|lra].
  - intros Hx Hfb. destruct H as [[H _]|[[_ [_ H]]|[_ [H _]]]]; [lra|exact H|lra].
Qed.
Print Assumptions C40_outside.

(** No access outside the vectors, and infinite exactly with hard walls and outside the open range of
    the centres. *)
Theorem C40_defined : forall hard centers weights x, 0 < length centers -> length weights = length centers -> increasing centers ->
  exists v, weight_function hard centers weights x = Some v /\ (v = Inf <-> hard = true /\ ~ in_range centers x).
Proof.
  intros hard cs ws x Hlen Hw Hl.
  destruct (weight_function_spec hard cs ws x Hlen Hw Hl) as [f [b [wf [wb [F [B [WF [WB H]]]]]]]].
  destruct H as [[A1 A2]|[[A1 [A2 A3]]|[A1 [A2 [j [d0 [d1 [v0 [v1 [D0 [D1 [V0 [V1 [G1 [G2 G3]]]]]]]]]]]]]]].
  - eexists. split; [exact A2|].
    assert (N : ~ in_range cs x) by (intros [a [e [R1 [R2 [R3 R4]]]]]; assert (a = f) by congruence; subst a; lra).
    destruct hard; split; intros E; try discriminate; try (split; [reflexivity|exact N]); try reflexivity. destruct E as [E _]. discriminate E.
  - eexists. split; [exact A3|].
    assert (N : ~ in_range cs x) by (intros [a [e [R1 [R2 [R3 R4]]]]]; assert (e = b) by congruence; subst e; lra).
    destruct hard; split; intros E; try discriminate; try (split; [reflexivity|exact N]); try reflexivity. destruct E as [E _]. discriminate E.
  - eexists. split; [exact G3|]. split; [discriminate|]. intros [_ H]. exfalso. apply H. exists f, b. split; [exact F|]. split; [exact B|]. split; assumption.
Qed.
Print Assumptions C40_defined.

(** A move to a place of infinite weight is never accepted; away from one it always is. *)
Theorem C40_accept : forall logr w_new w_old,
  (w_new = Inf -> accept logr w_new w_old = false) /\
  (forall a, w_new = Fin a -> w_old = Inf -> accept logr w_new w_old = true) /\
  (forall r a b, logr = Some r -> w_new = Fin a -> w_old = Fin b -> (accept logr w_new w_old = true <-> (r < b - a)%Q)).
Proof.
  intros logr wn wo. split; [intros ->; destruct wo; reflexivity|]. split; [intros a -> ->; reflexivity|].
  intros r a b -> -> ->. cbn [accept]. rewrite qlt_iff. split; intros H; lra.
Qed.
Print Assumptions C40_accept.

Example C40_example :
  map (weight_function false ex_limits [10; 12; 8; 9]%Q) [-1; 0; 4; 6]%Q = [Some (Fin 10); Some (Fin 10); Some (Fin 9); Some (Fin 9)]%Q /\
  map (weight_function true ex_limits [10; 12; 8; 9]%Q) [-1; 0; 4; 6]%Q = [Some Inf; Some Inf; Some Inf; Some Inf] /\
  (exists v, weight_function true ex_limits [10; 12; 8; 9]%Q 2 = Some (Fin v) /\ (v == 10)%Q) /\ increasing ex_limits.
Proof. split; [reflexivity|]. split; [reflexivity|]. split; [eexists; split; [reflexivity|reflexivity]|]. exact ex_limits_increasing. Qed.

(** *** C42 *)

Definition ex_muca : muca := mkMuca ex_limits (midpoints ex_limits) [0; 0; 0]%Q [0; 0; 0]%Z [0; 0; 0]%Z 0 1 (1 # 2) 4 2 all_visited.
Lemma ex_muca_well_formed : well_formed ex_muca.
Proof.
  split; [cbn; lia|]. split; [reflexivity|]. split; [exact ex_limits_increasing|]. split; [reflexivity|]. split; [reflexivity|]. split; [reflexivity|]. split; [reflexivity|]. left. reflexivity.
Qed.

(** Direct and smooth method: every call succeeds and answers whether C has not yet fallen below its
    minimum; over every history there is an answer to every call. *)
Theorem C42_direct : forall m x, well_formed m ->
  exists m' b, iterate_direct m x = Some (m', b) /\ well_formed m' /\ C_min m' = C_min m /\ (b = true <-> ~ (C m' < C_min m)%Q).
Proof. exact direct_step. Qed.
Print Assumptions C42_direct.

Theorem C42_smooth : forall m x, well_formed m ->
  exists m' b, iterate_direct_smooth m x = Some (m', b) /\ well_formed m' /\ C_min m' = C_min m /\ (b = true <-> ~ (C m' < C_min m)%Q).
Proof. exact smooth_step. Qed.
Print Assumptions C42_smooth.

Theorem C42_histories : forall m xs, well_formed m ->
  (exists m' answers, run iterate_direct m xs = Some (m', answers) /\ well_formed m' /\ length answers = length xs) /\
  (exists m' answers, run iterate_direct_smooth m xs = Some (m', answers) /\ well_formed m' /\ length answers = length xs).
Proof.
  intros m xs W. split; apply run_defined; try exact W; intros m0 x W0.
  - destruct (direct_step m0 x W0) as [m' [b [H1 [H2 _]]]]. exists m', b. split; assumption.
  - destruct (smooth_step m0 x W0) as [m' [b [H1 [H2 _]]]]. exists m', b. split; assumption.
Qed.
Print Assumptions C42_histories.

(** Single method: there is an answer exactly on the calls whose number is a multiple of the check
    interval. *)
Theorem C42_direct_single : forall m x, well_formed m ->
  exists m' a, iterate_direct_single m x = Some (m', a) /\ well_formed m' /\
    (a = None <-> ~ (single_check_interval m | count m + 1)%Z) /\
    (forall b, a = Some b -> (b = true <-> ~ (C m' < C_min m)%Q)).
Proof.
  intros m x W. destruct (single_step m x W) as [m' [a [H1 [H2 [_ [H4 [H5 _]]]]]]]. exists m', a. split; [exact H1|]. split; [exact H2|]. split; assumption.
Qed.
Print Assumptions C42_direct_single.

(** So there are calls without a definite answer. *)
Theorem C42_direct_single_refuted : exists m x m', well_formed m /\ iterate_direct_single m x = Some (m', None).
Proof. exists ex_muca, 2%Q. eexists. split; [exact ex_muca_well_formed|]. reflexivity. Qed.
Print Assumptions C42_direct_single_refuted.

(** Canonical method: with at least 100 iterations every call has the answer "no more than max_iters
    updates". *)
Theorem C42_canonical : forall count updates sample_size max_iters, (100 <= max_iters)%Z ->
  exists count' updates' b, canonical_status count updates sample_size max_iters = Some (count', updates', b) /\
    (b = true <-> (updates' <= max_iters \/ updates' = updates)%Z) /\
    ((sample_size <= count + 1)%Z -> updates' = (updates + 1)%Z /\ count' = 0%Z) /\
    ((count + 1 < sample_size)%Z -> updates' = updates /\ count' = (count + 1)%Z).
Proof.
  intros c u s mx Hm. unfold canonical_status. destruct (Z.leb_spec s (c + 1)) as [L|L].
  - assert (Q : (1 <= Z.quot mx 100)%Z) by (apply Z.quot_le_lower_bound; lia).
    rewrite (proj2 (Z.eqb_neq _ _)) by lia. eexists _, _, _. split; [reflexivity|]. split.
    + rewrite negb_true_iff, Z.ltb_ge. lia.
    + split; [intros _; split; reflexivity|lia].
  - eexists _, _, _. split; [reflexivity|]. split; [split; [intros _; right; reflexivity|reflexivity]|]. split; [lia|]. intros _. split; reflexivity.
Qed.
Print Assumptions C42_canonical.

(** With less than 100 iterations every update divides by zero. *)
Theorem C42_canonical_refuted : forall count updates sample_size max_iters,
  (0 <= max_iters < 100)%Z -> (sample_size <= count + 1)%Z -> canonical_status count updates sample_size max_iters = None.
Proof.
  intros c u s mx Hm Hs. unfold canonical_status. rewrite (proj2 (Z.leb_le _ _) Hs). rewrite Z.quot_small by lia. reflexivity.
Qed.
Print Assumptions C42_canonical_refuted.

Example C42_example : well_formed ex_muca /\
  (exists m', run iterate_direct ex_muca [1; 2; 7 # 2; 2; 1; 2; 7 # 2; 2]%Q = Some (m', [true; true; true; true; true; true; true; false])) /\
  (exists m', run iterate_direct_single ex_muca [1; 2; 7 # 2; 2]%Q = Some (m', [None; Some true; None; Some true])) /\
  canonical_status 0 0 1 99 = None /\ canonical_status 0 100 1 100 = Some (0, 101, false)%Z.
Proof. split; [exact ex_muca_well_formed|]. split; [eexists; vm_compute; reflexivity|]. split; [eexists; vm_compute; reflexivity|]. split; reflexivity. Qed.

(** *** C56 *)

(** One full sample of the direct method, from cleared counters: each weight grows by
    C * (hits in the bin) * (number of bins) / (sample size), up to one common shift that makes the
    least weight zero; the counters are cleared; the totals grow by the hits unless the finishing
    condition holds, in which case they are cleared and C is divided by 1.5. *)
Theorem C56_direct_sample : forall m xs, well_formed m -> count m = 0%Z -> Forall (fun n => n = 0%Z) (hits m) -> Z.of_nat (length xs) = sample_size m ->
  exists m' l ns base done tot,
    run iterate_direct m xs = Some (m', l) /\ length ns = length (weights m) /\
    (forall i, i < length (weights m) -> counts (fun x => in_range (limits m) x /\ in_bin (limits m) i x) xs (nth i ns 0%Z)) /\
    counts (in_range (limits m)) xs (zsum ns) /\
    length (weights m') = length (weights m) /\ count m' = 0%Z /\ length (hits m') = length (weights m) /\ Forall (fun n => n = 0%Z) (hits m') /\
    (forall i, i < length (weights m) ->
       (nth i (weights m') 0 == nth i (weights m) 0 + C m * inject_Z (nth i ns 0%Z) * inject_Z (Z.of_nat (length (weights m))) / inject_Z (sample_size m) - base)%Q /\ (0 <= nth i (weights m') 0)%Q) /\
    (exists i, i < length (weights m) /\ (nth i (weights m') 0 == 0)%Q) /\
    length tot = length (weights m) /\ (forall i, i < length (weights m) -> nth i tot 0%Z = (nth i (hits_total m) 0 + nth i ns 0)%Z) /\
    finish_check m tot = Some done /\
    (done = true -> Forall (fun n => n = 0%Z) (hits_total m') /\ (C m' == C m / (3 # 2))%Q) /\ (done = false -> hits_total m' = tot /\ C m' = C m).
Proof. exact direct_sample. Qed.
Print Assumptions C56_direct_sample.

(** A value of the single method raises the weight of its bin by C and no other, up to the common
    shift made on the calls that check. *)
Theorem C56_single : forall m x, well_formed m ->
  exists m' a base, iterate_direct_single m x = Some (m', a) /\ (a = None -> base = 0%Q) /\
    forall i, i < length (weights m) ->
      (in_range (limits m) x /\ in_bin (limits m) i x -> (nth i (weights m') 0 == nth i (weights m) 0 + C m - base)%Q) /\
      (~ (in_range (limits m) x /\ in_bin (limits m) i x) -> (nth i (weights m') 0 == nth i (weights m) 0 - base)%Q) /\
      (a <> None -> (0 <= nth i (weights m') 0)%Q).
Proof.
  intros m x W. destruct (single_step m x W) as [m' [a [H1 [_ [_ [_ [_ [base [H2 H3]]]]]]]]]. exists m', a, base. split; [exact H1|]. split; assumption.
Qed.
Print Assumptions C56_single.

(** The smooth method adds 5 to the counter of the bin of each value, 3 and 1 to the neighbours that
    exist, and at the end of a sample adds C * (counter - first counter) / (number of bins). *)
Theorem C56_smooth : forall m x, well_formed m ->
  exists h m' b, length h = length (weights m) /\
    (forall j, j < length (weights m) ->
       (forall i, in_range (limits m) x /\ in_bin (limits m) i x -> nth j h 0%Z = (nth j (hits m) 0 + smooth_kernel i j)%Z) /\
       (~ in_range (limits m) x -> nth j h 0%Z = nth j (hits m) 0%Z)) /\
    iterate_direct_smooth m x = Some (m', b) /\
    ((count m + 1 < sample_size m)%Z -> weights m' = weights m /\ hits m' = h /\ count m' = (count m + 1)%Z) /\
    ((sample_size m <= count m + 1)%Z -> length (weights m') = length (weights m) /\ Forall (fun n => n = 0%Z) (hits m') /\ count m' = 0%Z /\
       forall j, j < length (weights m) ->
         (nth j (weights m') 0 == nth j (weights m) 0 + C m * inject_Z (nth j h 0%Z - nth 0 h 0%Z) / inject_Z (Z.of_nat (length (weights m))))%Q).
Proof. exact smooth_full. Qed.
Print Assumptions C56_smooth.

(** Meaning of the finishing conditions. *)
Theorem C56_finish : forall totals,
  (all_visited totals = Some true <-> Forall (fun n => n <> 0%Z) totals) /\
  (0 < length totals -> exists b, first_last_visited totals = Some b /\
     (b = true <-> nth 0 totals 0%Z <> 0%Z /\ nth (length totals - 1) totals 0%Z <> 0%Z)).
Proof.
  intros t. split.
  - unfold all_visited. split.
    + intros H. injection H as H. apply Forall_forall. intros n Hn. pose proof (proj1 (forallb_forall _ _) H n Hn) as G. cbv beta in G.
      apply negb_true_iff in G. apply Z.eqb_neq. exact G.
    + intros H. f_equal. apply forallb_forall. intros n Hn. apply negb_true_iff. apply Z.eqb_neq. apply (proj1 (Forall_forall _ _) H n Hn).
  - intros Hl. unfold first_last_visited, front, back. destruct t as [|x l]; [cbn [length] in Hl; lia|].
    rewrite (nth_error_nth' (x :: l) 0%Z) by (cbn [length]; lia). rewrite (nth_error_nth' (x :: l) 0%Z) by (cbn [length]; lia). cbn [bind].
    eexists. split; [reflexivity|]. rewrite negb_true_iff, orb_false_iff, !Z.eqb_neq. reflexivity.
Qed.
Print Assumptions C56_finish.

Example C56_example : well_formed ex_muca /\ count ex_muca = 0%Z /\ Forall (fun n => n = 0%Z) (hits ex_muca) /\
  exists m' l, run iterate_direct ex_muca [1; 2; 2; -1]%Q = Some (m', l) /\
    map Qred (weights m') = [3 # 4; 3 # 2; 0]%Q /\ hits_total m' = [1; 2; 0]%Z /\ C m' = 1%Q.
Proof.
  split; [exact ex_muca_well_formed|]. split; [reflexivity|]. split; [repeat constructor|].
  eexists _, _. split; [vm_compute; reflexivity|]. split; [reflexivity|]. split; reflexivity.
Qed.

(** *** C57 *)

(** The canonical update follows its rule with the densities (histogram divided by bin width) of the
    two bins, for every pair of adjacent bins that does not contain the last bin. *)
Theorem C57_canonical : forall ln min_hits limits hits gsum can w_prev, 0 < length hits ->
  length limits = length hits + 1 -> length gsum = length hits -> length can = length hits -> length w_prev = length hits ->
  exists ws gs, canonical_update ln min_hits limits hits gsum can w_prev = Some (ws, gs) /\ length ws = length hits /\ length gs = length hits /\
    nth 0 ws 0%Q = nth 0 w_prev 0%Q /\
    forall i, S (S i) < length hits ->
      canonical_rule ln min_hits (nth i hits 0%Z) (nth (S i) hits 0%Z) (nth (S i) gsum 0%Z) (density can limits i) (density can limits (S i))
        (nth i w_prev 0%Q) (nth (S i) w_prev 0%Q) (nth i ws 0%Q) (nth (S i) ws 0%Q) (nth (S i) gs 0%Z).
Proof.
  intros ln mh lim hs gs can wp H0 H1 H2 H3 H4. unfold canonical_update.
  pose proof (normalise_length can lim) as NL.
  assert (NN : forall i, S i < length can -> nth i (normalise can lim) 0%Q = density can lim i) by (intros i Hi; apply normalise_nth; lia).
  destruct hs as [|h hs]; [cbn [length] in H0; lia|]. destruct gs as [|g gs]; [cbn [length] in H2; lia|].
  destruct wp as [|p wp]; [cbn [length] in H4; lia|]. destruct (normalise can lim) as [|c can'] eqn:En; [cbn [length] in *; lia|].
  cbn [length] in *.
  destruct (canonical_loop_spec ln mh hs h c p p gs can' wp ltac:(lia) ltac:(lia) ltac:(lia)) as [ws [g' [E [L1 [L2 R]]]]].
  rewrite E. cbn [bind fst snd]. exists (p :: ws), (g :: g'). split; [reflexivity|]. split; [cbn [length]; lia|]. split; [cbn [length]; lia|]. split; [reflexivity|].
  intros i Hi. specialize (R i ltac:(lia)). rewrite <- (NN i) by lia. rewrite <- (NN (S i)) by lia. exact R.
Qed.
Print Assumptions C57_canonical.

(** For the last bin the rule fails: its histogram is not divided by the bin width.  Four bins, the
    last twice as wide and with a histogram in proportion, no earlier data: the last weight should be
    that of the others for every logarithm with ln 1 = 0, but is not if ln (1/2) is not zero. *)
Theorem C57_canonical_refuted : forall ln : Q -> Q, (forall a b, (a == b)%Q -> (ln a == ln b)%Q) -> (ln 1 == 0)%Q -> ~ (ln (1 # 2) == 0)%Q ->
  exists min_hits limits hits gsum can w_prev ws gs,
    length limits = length hits + 1 /\ length gsum = length hits /\ length can = length hits /\ length w_prev = length hits /\ increasing limits /\
    canonical_update ln min_hits limits hits gsum can w_prev = Some (ws, gs) /\
    (forall i, i < length hits -> (density can limits i == 10)%Q) /\
    (nth 1 ws 0 == nth 0 ws 0)%Q /\ (nth 2 ws 0 == nth 0 ws 0)%Q /\ ~ (nth 3 ws 0 == nth 0 ws 0)%Q.
Proof.
  intros ln Hln H1 H2. exists 1%Z, [0; 1; 2; 3; 5]%Q, [10; 10; 10; 20]%Z, [0; 0; 0; 0]%Z, [10; 10; 10; 20]%Q, [0; 0; 0; 0]%Q.
  eexists _, _. split; [reflexivity|]. split; [reflexivity|]. split; [reflexivity|]. split; [reflexivity|]. split.
  { intros [|[|[|[|[|i]]]]] a b Ha Hb; cbn in Ha, Hb; try discriminate; try (injection Ha as <-; injection Hb as <-; lra). }
  split; [reflexivity|]. split.
  { intros [|[|[|[|i]]]] Hi; try (unfold density; cbn [nth]; reflexivity). cbn [length] in Hi. lia. }
  cbn [fst snd nth].
  assert (A : (ln ((10 / (1 - 0)) / (10 / (2 - 1))) == 0)%Q) by (transitivity (ln 1%Q); [apply Hln; reflexivity|exact H1]).
  assert (B : (ln ((10 / (2 - 1)) / (10 / (3 - 2))) == 0)%Q) by (transitivity (ln 1%Q); [apply Hln; reflexivity|exact H1]).
  assert (D : (ln ((10 / (3 - 2)) / 20) == ln (1 # 2))%Q) by (apply Hln; reflexivity).
  split; [rewrite A; reflexivity|]. split; [rewrite A, B; reflexivity|].
  rewrite A, B, D. intros H. apply H2. revert H. generalize (ln (1 # 2)). intros q Hq.
  unfold inject_Z in Hq. change (20 + 10)%Z with 30%Z in Hq. change (0 + 30)%Z with 30%Z in Hq. change (10 + 10)%Z with 20%Z in Hq. change (0 + 20)%Z with 20%Z in Hq.
  field_simplify in Hq. assert (Eq : (-600 * q / 600 == - q)%Q) by field. rewrite Eq in Hq. lra.
Qed.
Print Assumptions C57_canonical_refuted.

Example C57_example : exists ws gs,
  canonical_update (fun q => q - 1)%Q 1 [0; 1; 2; 3; 5]%Q [10; 10; 10; 20]%Z [0; 0; 0; 0]%Z [10; 10; 10; 20]%Q [0; 0; 0; 0]%Q = Some (ws, gs) /\
  map Qred ws = [0; 0; 0; 1 # 2]%Q /\ gs = [0; 20; 20; 30]%Z.
Proof. eexists _, _. split; [vm_compute; reflexivity|]. split; reflexivity. Qed.
