(** Proofs about Field::min and Field::max. *)
From Coq Require Import Permutation.
From Verif Require Import Common LayoutModel LayoutSpec LayoutProofs1 LayoutProofs2 ReduceModel ReduceSpec ReduceProofs1
  MinmaxModel MinmaxSpec.

Section Better.
  Variable is_min : bool.
  Local Notation better := (better is_min).

  Lemma better_irrefl : forall a, better a a = false.
  Proof. intros a. unfold MinmaxModel.better. destruct is_min; cbn; lia. Qed.
  Lemma better_trans : forall a b c, better a b = true -> better b c = true -> better a c = true.
  Proof. intros a b c. unfold MinmaxModel.better. destruct is_min; cbn; lia. Qed.
  (** [b] is not better than [a], [c] not better than [b]. *)
  Lemma worse_trans : forall a b c, better b a = false -> better c b = false -> better c a = false.
  Proof. intros a b c. unfold MinmaxModel.better. destruct is_min; cbn; lia. Qed.
  Lemma better_worse : forall a b, better a b = true -> better b a = false.
  Proof. intros a b. unfold MinmaxModel.better. destruct is_min; cbn; lia. Qed.
  Lemma better_total : forall a b, better a b = false -> better b a = false -> a = b.
  Proof. intros a b. unfold MinmaxModel.better. destruct is_min; cbn; lia. Qed.
  Lemma better_not : forall a b, better a b = false <-> if is_min then b <= a else a <= b.
  Proof. intros a b. unfold MinmaxModel.better. destruct is_min; cbn; lia. Qed.

  Section Local.
    Variable init : Z.
    Variable ndim : nat.
    Variable g : Z -> Z.
    Variable loc : Z -> list Z.

    (** [s] is the best of [L] if that is better than [init], otherwise [(init, l0)]. *)
    Definition best (l0 : list Z) (s : Z * list Z) (L : list Z) : Prop :=
      (forall i, In i L -> better (g i) (fst s) = false) /\
      (s = (init, l0) \/ exists i, In i L /\ s = (g i, loc i) /\ better (g i) init = true).

    Lemma best_init : forall l0 s L, best l0 s L -> better init (fst s) = false.
    Proof.
      intros l0 s L [_ [->|(i & _ & -> & Hb)]]; cbn [fst]; [apply better_irrefl|apply better_worse; auto].
    Qed.

    Lemma thread_best_aux : forall chunk s L l0, best l0 s L ->
      best l0 (fold_left (fun s i => if better (g i) (fst s) then (g i, loc i) else s) chunk s) (L ++ chunk).
    Proof.
      induction chunk as [|i chunk IH]; intros s L l0 Hs; cbn [fold_left]; [rewrite app_nil_r; auto|].
      replace (L ++ i :: chunk) with ((L ++ [i]) ++ chunk) by (rewrite <- app_assoc; auto).
      apply IH. assert (Hi := best_init _ _ _ Hs). destruct Hs as [H1 H2].
      destruct (better (g i) (fst s)) eqn:E; split.
      - intros j Hj. apply in_app_or in Hj. cbn [fst]. destruct Hj as [Hj|[->|[]]]; [|apply better_irrefl].
        apply (worse_trans _ (fst s)); auto. apply better_worse; auto.
      - right. exists i. split; [apply in_or_app; right; simpl; auto|]. split; auto.
        destruct (better (g i) init) eqn:E2; auto. exfalso.
        assert (better (g i) (fst s) = false) by (apply (worse_trans _ init); auto). congruence.
      - intros j Hj. apply in_app_or in Hj. destruct Hj as [Hj|[->|[]]]; auto.
      - destruct H2 as [->|(j & Hj & E1 & E2)]; auto. right. exists j. split; [apply in_or_app; auto|auto].
    Qed.

    Lemma thread_best : forall chunk, best (repeat 0 ndim) (thread_loop is_min init ndim g loc chunk) chunk.
    Proof.
      intros chunk. unfold thread_loop. apply (thread_best_aux chunk _ []). split; [intros i []|auto].
    Qed.

    Lemma critical_best : forall l0 l1 s th L M, best l0 s L -> best l1 th M ->
      best l0 (critical is_min s th) (L ++ M).
    Proof.
      intros l0 l1 s th L M Hs Ht. assert (Hi := best_init _ _ _ Hs). destruct Hs as [H1 H2], Ht as [H3 H4].
      unfold critical. destruct (better (fst th) (fst s)) eqn:E; split.
      - intros j Hj. apply in_app_or in Hj. destruct Hj as [Hj|Hj]; auto.
        apply (worse_trans _ (fst s)); auto. apply better_worse; auto.
      - destruct H4 as [->|(j & Hj & -> & Hb)].
        + cbn [fst] in E. congruence.
        + right. exists j. split; [apply in_or_app; auto|auto].
      - intros j Hj. apply in_app_or in Hj. destruct Hj as [Hj|Hj]; auto.
        apply (worse_trans _ (fst th)); auto.
      - destruct H2 as [->|(j & Hj & E1 & E2)]; auto. right. exists j. split; [apply in_or_app; auto|auto].
    Qed.

    Lemma rank_best_aux : forall l0 chunks s L, best l0 s L ->
      best l0 (fold_left (critical is_min) (map (thread_loop is_min init ndim g loc) chunks) s) (L ++ concat chunks).
    Proof.
      intros l0. induction chunks as [|c chunks IH]; intros s L Hs; cbn [map fold_left concat]; [rewrite app_nil_r; auto|].
      rewrite app_assoc. apply IH. apply (critical_best _ (repeat 0 ndim)); auto. apply thread_best.
    Qed.

    Lemma rank_best : forall l0 chunks, best l0 (rank_minmax is_min init ndim g loc l0 chunks) (concat chunks).
    Proof.
      intros l0 chunks. unfold rank_minmax. apply (rank_best_aux l0 chunks _ []). split; [intros i []|auto].
    Qed.
  End Local.

  (** The combination over ranks: the best value and a rank that has it. *)
  Lemma combine_best : forall t f, 
    let res := combine_ranks (mpi_loc is_min) t (fun k => (f k, k)) in
    In (snd res) (leaves t) /\ fst res = f (snd res) /\ forall k, In k (leaves t) -> better (f k) (fst res) = false.
  Proof.
    induction t as [r|a IHa b IHb]; intros f; cbn [combine_ranks leaves].
    - split; [simpl; auto|]. split; [reflexivity|]. intros k [->|[]]. apply better_irrefl.
    - specialize (IHa f). specialize (IHb f). cbv zeta in *.
      set (x := combine_ranks (mpi_loc is_min) a (fun k => (f k, k))) in *.
      set (y := combine_ranks (mpi_loc is_min) b (fun k => (f k, k))) in *.
      destruct IHa as (A1 & A2 & A3), IHb as (B1 & B2 & B3). unfold mpi_loc.
      destruct (better (fst x) (fst y)) eqn:E1; [|destruct (better (fst y) (fst x)) eqn:E2].
      + split; [apply in_or_app; auto|]. split; auto. intros k Hk. apply in_app_or in Hk. destruct Hk as [Hk|Hk]; auto.
        apply (worse_trans _ (fst y)); auto. apply better_worse; auto.
      + split; [apply in_or_app; auto|]. split; auto. intros k Hk. apply in_app_or in Hk. destruct Hk as [Hk|Hk]; auto.
        apply (worse_trans _ (fst x)); auto.
      + assert (E := better_total _ _ E1 E2). cbn [fst snd]. split; [|split].
        * apply in_or_app. destruct (Z.min_spec (snd x) (snd y)) as [[_ ->]|[_ ->]]; auto.
        * destruct (Z.min_spec (snd x) (snd y)) as [[_ ->]|[_ ->]]; congruence.
        * intros k Hk. apply in_app_or in Hk. destruct Hk as [Hk|Hk]; auto. rewrite E. auto.
  Qed.
  (** Of equal values the lowest rank is reported. *)
  Lemma combine_lowest : forall t f v, (forall k, In k (leaves t) -> f k = v) ->
    let res := combine_ranks (mpi_loc is_min) t (fun k => (f k, k)) in
    fst res = v /\ forall k, In k (leaves t) -> snd res <= k.
  Proof.
    induction t as [r|a IHa b IHb]; intros f v H; cbn [combine_ranks leaves].
    - split; [apply H; simpl; auto|]. intros k [->|[]]. cbn. lia.
    - cbn [leaves] in H.
      destruct (IHa f v) as [A1 A2]; [intros; apply H; apply in_or_app; auto|].
      destruct (IHb f v) as [B1 B2]; [intros; apply H; apply in_or_app; auto|]. cbv zeta in *.
      set (x := combine_ranks (mpi_loc is_min) a (fun k => (f k, k))) in *.
      set (y := combine_ranks (mpi_loc is_min) b (fun k => (f k, k))) in *.
      unfold mpi_loc. rewrite A1, B1, better_irrefl. cbn [fst snd]. split; auto.
      intros k Hk. apply in_app_or in Hk. destruct Hk as [Hk|Hk]; [apply A2 in Hk|apply B2 in Hk]; lia.
  Qed.
End Better.

Section Field.
  Variable lat : lattice.
  Hypothesis Hv : valid_lattice lat.
  Variable is_min : bool.
  Variable ty : numtype.
  Variable p : parity.
  Variable mem : Z -> Z -> Z.
  Variable F : list Z -> Z.
  Variable loc0 : Z -> list Z.
  Variable chunks : Z -> list (list Z).
  Variable t : rtree.
  Hypothesis Hrep : represents lat mem F.
  Hypothesis Hch : thread_shares lat p chunks.
  Hypothesis Ht : any_order lat t.

  Local Notation init := (initial_value is_min ty).
  Local Notation local k := (rank_minmax is_min init (length (l_size lat)) (mem k) (coordinates (nodeinfo lat k)) (loc0 k) (chunks k)).

  Lemma local_sites : forall k i, is_rank lat k -> In i (concat (chunks k)) ->
    let c := coordinates (nodeinfo lat k) i in holds lat k c /\ has_parity p c /\ mem k i = F c.
  Proof.
    intros k i Hk Hi c. apply (Permutation_in _ (Hch k Hk)) in Hi.
    destruct (loop_visits lat k p Hv Hk) as [_ HV]. cbv zeta in HV.
    assert (Hc : In c (map (coordinates (nodeinfo lat k)) (loop_indices (nodeinfo lat k) p)))
      by (apply in_map; auto).
    apply HV in Hc. destruct Hc as [H1 H2]. split; auto. split; auto.
    rewrite <- (Hrep k c) by auto. f_equal. unfold c. symmetry. apply coordinates_inverse; auto.
    unfold loop_indices in Hi. apply zrange_In in Hi.
    destruct (rank_box _ _ Hv Hk) as (mn & sz & E & Hl & Hs & _).
    assert (Hn := box_counts_nonneg mn sz Hl Hs). rewrite E in *. revert Hi.
    unfold loop_begin, loop_end, volume. destruct p; lia.
  Qed.

  Lemma local_covers : forall k c, is_rank lat k -> holds lat k c -> has_parity p c ->
    exists i, In i (concat (chunks k)) /\ coordinates (nodeinfo lat k) i = c.
  Proof.
    intros k c Hk Hc Hp. destruct (loop_visits lat k p Hv Hk) as [_ HV]. cbv zeta in HV.
    assert (H := proj2 (HV c) (conj Hc Hp)). apply in_map_iff in H. destruct H as (i & E & Hi).
    exists i. split; auto. apply (Permutation_in _ (Permutation_sym (Hch k Hk))). auto.
  Qed.

  (** What one rank has after its loop. *)
  Lemma local_result : forall k, is_rank lat k ->
    (forall c, holds lat k c -> has_parity p c -> better is_min (F c) (fst (local k)) = false) /\
    better is_min init (fst (local k)) = false /\
    (local k = (init, loc0 k) \/
     exists c, holds lat k c /\ has_parity p c /\ local k = (F c, c) /\ better is_min (F c) init = true).
  Proof.
    intros k Hk.
    assert (HB := rank_best is_min init (length (l_size lat)) (mem k) (coordinates (nodeinfo lat k)) (loc0 k) (chunks k)).
    assert (HI := best_init _ _ _ _ _ _ _ HB). destruct HB as [H1 H2]. split; [|split; auto].
    - intros c Hc Hp. destruct (local_covers k c Hk Hc Hp) as (i & Hi & <-).
      destruct (local_sites k i Hk Hi) as (_ & _ & <-). auto.
    - destruct H2 as [H2|(i & Hi & E & Hb)]; auto. right. exists (coordinates (nodeinfo lat k) i).
      destruct (local_sites k i Hk Hi) as (A1 & A2 & A3). rewrite <- A3. auto.
  Qed.

  (** The chosen rank. *)
  Lemma result_rank : forall r, is_rank lat r -> exists k, is_rank lat k /\
    (forall r', is_rank lat r' -> minmax lat is_min ty mem loc0 chunks t r' = local k) /\
    (forall k', is_rank lat k' -> better is_min (fst (local k')) (fst (local k)) = false) /\
    ((forall k', is_rank lat k' -> fst (local k') = fst (local k)) -> k = 0).
  Proof.
    intros r Hr. unfold minmax. destruct (1 <? number_of_nodes lat) eqn:E1.
    - destruct (combine_best is_min t (fun k => fst (local k))) as (A1 & A2 & A3). cbv zeta in A1, A2, A3.
      set (res := combine_ranks (mpi_loc is_min) t (fun k => (fst (local k), k))) in *.
      assert (HL : forall k, In k (leaves t) <-> is_rank lat k).
      { intros k. rewrite <- (rank_range lat). split; intros H.
        - apply (Permutation_in _ Ht). auto.
        - apply (Permutation_in _ (Permutation_sym Ht)). auto. }
      exists (snd res). split; [apply HL; auto|]. split; [|split].
      + intros r' _. cbv zeta. fold res. rewrite A2. symmetry. apply surjective_pairing.
      + intros k' Hk'. rewrite <- A2. apply A3. apply HL. auto.
      + intros H. destruct (combine_lowest is_min t (fun k => fst (local k)) (fst (local (snd res)))) as [_ B].
        { intros k Hk. apply H. apply HL. auto. }
        cbv zeta in B. fold res in B. assert (H0 : is_rank lat (snd res)) by (apply HL; auto).
        assert (Hz : snd res <= 0). { apply B. apply HL. unfold is_rank in *. lia. }
        unfold is_rank in *. lia.
    - assert (E : forall k, is_rank lat k -> k = 0) by (unfold is_rank in *; intros; lia).
      exists 0. rewrite <- (E r Hr). split; auto. split; [|split; auto].
      + intros r' Hr'. rewrite (E r' Hr'), (E r Hr). auto.
      + intros k' Hk'. rewrite (E k' Hk'), (E r Hr). apply better_irrefl.
  Qed.

  Lemma minmax_found : (exists c, is_site (l_size lat) c /\ has_parity p c /\ better is_min (F c) init = true) ->
    exists v c, extremum is_min (l_size lat) p F v c /\
      forall r, is_rank lat r -> minmax lat is_min ty mem loc0 chunks t r = (v, c).
  Proof.
    intros (c0 & S0 & P0 & B0). destruct (owner_unique lat c0 Hv S0) as [Hr Ho].
    destruct (result_rank _ Hr) as (k & Hk & H1 & H2 & _).
    assert (Hall : forall c, is_site (l_size lat) c -> has_parity p c -> better is_min (F c) (fst (local k)) = false).
    { intros c Sc Pc. destruct (owner_unique lat c Hv Sc) as [Hr' Ho'].
      apply (worse_trans _ _ (fst (local (node_rank lat c)))); [apply H2; auto|].
      apply local_result; auto. apply Ho'; auto. }
    destruct (local_result k Hk) as (_ & _ & [E|(c & C1 & C2 & E & C3)]).
    - exfalso. assert (H := Hall c0 S0 P0). rewrite E in H. cbn [fst] in H. congruence.
    - exists (F c), c. split.
      + split; [apply (holds_is_site lat k); auto|]. split; auto. split; auto.
        intros c' S' P'. apply better_not. assert (H := Hall c' S' P'). rewrite E in H. auto.
      + intros r Hr'. rewrite H1 by auto. auto.
  Qed.

  Lemma minmax_none : (forall c, is_site (l_size lat) c -> has_parity p c -> better is_min (F c) init = false) ->
    forall r, is_rank lat r -> minmax lat is_min ty mem loc0 chunks t r = (init, loc0 0).
  Proof.
    intros H r Hr. destruct (result_rank r Hr) as (k & Hk & H1 & _ & H2).
    assert (Hl : forall k, is_rank lat k -> local k = (init, loc0 k)).
    { intros k' Hk'. destruct (local_result k' Hk') as (_ & _ & [E|(c & C1 & C2 & E & C3)]); auto.
      exfalso. rewrite H in C3; auto; [congruence|]. apply (holds_is_site lat k'); auto. }
    assert (E0 : k = 0) by (apply H2; intros k' Hk'; rewrite !Hl by auto; auto).
    rewrite H1 by auto. rewrite Hl by auto. rewrite E0. auto.
  Qed.
End Field.
