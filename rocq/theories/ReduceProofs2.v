(** C18: the generated loop with reduction variables. *)
From Coq Require Import Permutation.
From Verif Require Import Common LayoutModel LayoutSpec IoProofs1 ReduceModel ReduceSpec ReduceProofs1.

(** Folds whose steps change the contents of one name only. *)
Lemma fold_names : forall (A B : Type) (name : A -> Z) (f : A -> B -> B) (step : (Z -> B) -> A -> Z -> B),
  (forall m v k, step m v k = if k =? name v then f v (m k) else m k) ->
  forall vs m k, NoDup (map name vs) ->
    (~ In k (map name vs) -> fold_left step vs m k = m k) /\
    (forall v, In v vs -> fold_left step vs m (name v) = f v (m (name v))).
Proof.
  intros A B name f step Hs. induction vs as [|w vs IH]; intros m k Hn; cbn [fold_left map].
  - split; auto. intros v [].
  - cbn [map] in Hn. inversion Hn as [|? ? Hw Hn']; subst. destruct (IH (step m w) k Hn') as [I1 I2]. split.
    + intros Hk. rewrite I1 by (simpl in Hk; tauto). rewrite Hs. destruct (Z.eqb_spec k (name w)); auto. simpl in Hk. intuition congruence.
    + intros v [->|Hv].
      * rewrite (proj1 (IH (step m v) (name v) Hn')) by auto. rewrite Hs, Z.eqb_refl. auto.
      * rewrite I2 by auto. f_equal. rewrite Hs. destruct (Z.eqb_spec (name v) (name w)) as [E|]; auto.
        elim Hw. rewrite <- E. apply in_map. auto.
Qed.

Section C18.
  Context {V : Type}.
  Variables (add mul : V -> V -> V) (zero one : V).
  Variable T : Z -> nat -> rtree.
  Variable lat : lattice.
  Hypothesis Hv : valid_lattice lat.
  Hypothesis Hadd : comm_monoid add zero.
  Hypothesis Hmul : comm_monoid mul one.
  Hypothesis HT : forall k j, any_order lat (T k j).
  Variable p : parity.
  Variable vs : list (rvar V).
  Hypothesis Hnd : NoDup (map rv_name vs).
  Local Notation rv_op := (rv_op V add mul).
  Local Notation rv_unit := (rv_unit V zero one).

  Lemma rv_monoid : forall v, comm_monoid (rv_op v) (rv_unit v).
  Proof. intros v. unfold ReduceModel.rv_op, ReduceModel.rv_unit. destruct (rv_prod v); auto. Qed.

  (** After the site loop each temporary holds the local result. *)
  Lemma body_names : forall r i m, (forall v, In v vs -> forall j, (j < rv_words v)%nat ->
      loop_body V add mul vs r i m (rv_name v) j = rv_op v (m (rv_name v) j) (rv_g v r i j)).
  Proof.
    intros r i m v Hi j Hj. unfold loop_body.
    rewrite (proj2 (fold_names _ _ rv_name (fun v x => words V (rv_words v) (fun j => rv_op v (x j) (rv_g v r i j)) x)
      (fun m v => zupd m (rv_name v) (words V (rv_words v) (fun j => rv_op v (m (rv_name v) j) (rv_g v r i j)) (m (rv_name v))))
      ltac:(intros m0 v0 k; unfold zupd; destruct (Z.eqb_spec k (rv_name v0)) as [->|]; auto) vs m 0 Hnd) v Hi).
    unfold words. replace (j <? rv_words v)%nat with true; auto. symmetry. apply Nat.ltb_lt. auto.
  Qed.

  Lemma loop_names : forall r l m v j, In v vs -> (j < rv_words v)%nat ->
    fold_left (fun m i => loop_body V add mul vs r i m) l m (rv_name v) j =
    fold_left (fun a i => rv_op v a (rv_g v r i j)) l (m (rv_name v) j).
  Proof.
    intros r. induction l as [|i l IH]; intros m v j Hi Hj; cbn [fold_left]; auto.
    rewrite IH by auto. rewrite body_names by auto. auto.
  Qed.

  Definition local (v : rvar V) (r : Z) (j : nat) : V :=
    local_reduce (rv_op v) (nodeinfo lat r) p (fun i => rv_g v r i j) (rv_unit v).

  Lemma site_loop_ok : forall tmp v r j, In v vs -> (j < rv_words v)%nat ->
    site_loop V add mul lat p vs (reduction_init V zero one vs tmp) (rv_name v) r j = local v r j.
  Proof.
    intros tmp v r j Hi Hj. unfold site_loop. rewrite loop_names by auto. unfold local, local_reduce. f_equal.
    assert (E := proj2 (fold_names _ _ rv_name (fun v x => fun r => words V (rv_words v) (fun _ => rv_unit v) (x r))
      (fun m v => set_name V m (rv_name v) (fun r => words V (rv_words v) (fun _ => rv_unit v) (m (rv_name v) r)))
      ltac:(intros m0 v0 k; unfold set_name, zupd; destruct (Z.eqb_spec k (rv_name v0)) as [->|]; auto) vs tmp 0 Hnd) v Hi).
    change (fold_left _ vs tmp (rv_name v)) with (reduction_init V zero one vs tmp (rv_name v)) in E. rewrite E.
    unfold words. replace (j <? rv_words v)%nat with true; auto. symmetry. apply Nat.ltb_lt. auto.
  Qed.

  (** ** Folds over pairs of memories *)
  Definition pair_fold (f : rvar V -> (Z -> nat -> V) * (Z -> nat -> V) -> (Z -> nat -> V) * (Z -> nat -> V))
    (step : vmem V * vmem V -> rvar V -> vmem V * vmem V) : Prop :=
    forall s v k, (fst (step s v) k, snd (step s v) k) = if k =? rv_name v then f v (fst s k, snd s k) else (fst s k, snd s k).

  Lemma pair_fold_ok : forall f step, pair_fold f step -> forall ws s, NoDup (map rv_name ws) ->
    (forall k, ~ In k (map rv_name ws) -> fst (fold_left step ws s) k = fst s k /\ snd (fold_left step ws s) k = snd s k) /\
    (forall v, In v ws -> (fst (fold_left step ws s) (rv_name v), snd (fold_left step ws s) (rv_name v)) =
       f v (fst s (rv_name v), snd s (rv_name v))).
  Proof.
    intros f step Hs. induction ws as [|w ws IH]; intros s Hn; cbn [fold_left map].
    - split; auto. intros v [].
    - cbn [map] in Hn. inversion Hn as [|? ? Hw Hn']; subst. destruct (IH (step s w) Hn') as [I1 I2]. split.
      + intros k Hk. simpl in Hk. destruct (I1 k) as [-> ->]; [tauto|]. assert (E := Hs s w k).
        replace (k =? rv_name w) with false in E by (symmetry; apply Z.eqb_neq; intuition congruence). inversion E; auto.
      + intros v [->|Hin].
        * destruct (I1 (rv_name v) Hw) as [-> ->]. rewrite (Hs s v (rv_name v)), Z.eqb_refl. auto.
        * rewrite I2 by auto. f_equal. rewrite (Hs s w (rv_name v)).
          destruct (Z.eqb_spec (rv_name v) (rv_name w)) as [E|]; auto. elim Hw. rewrite <- E. apply in_map. auto.
  Qed.

  Definition fprod (v : rvar V) (s : (Z -> nat -> V) * (Z -> nat -> V)) :=
    if rv_prod v then
      let x := fun r : Z => if r =? 0 then words V (rv_words v) (fun j => mul (snd s r j) (fst s r j)) (snd s r) else snd s r in
      let y := reduce_words V T mul true (rv_name v) (rv_words v) x in
      (fun r => words V (rv_words v) (y r) (fst s r), y)
    else s.

  Lemma prod_fold : pair_fold fprod (fun s v => product_result V mul T v s).
  Proof.
    intros [va tm] v k. unfold product_result, fprod. destruct (rv_prod v).
    - unfold set_name, zupd. cbn [fst snd]. destruct (Z.eqb_spec k (rv_name v)) as [->|]; auto.
    - destruct (k =? _); auto.
  Qed.

  Definition fold_old (v : rvar V) (s : (Z -> nat -> V) * (Z -> nat -> V)) :=
    if rv_prod v then s
    else (fst s, fun r : Z => if r =? 0 then words V (rv_words v) (fun j => add (snd s r j) (fst s r j)) (snd s r) else snd s r).

  Lemma old_fold : pair_fold fold_old (fun s v => add_old V add v s).
  Proof.
    intros [va tm] v k. unfold add_old, fold_old. destruct (rv_prod v).
    - destruct (k =? _); auto.
    - unfold set_name, zupd. cbn [fst snd]. destruct (Z.eqb_spec k (rv_name v)) as [->|]; auto.
  Qed.

  (** ** Combination over ranks *)
  Lemma HT_nodup : forall k j, NoDup (leaves (T k j)) /\ In 0 (leaves (T k j)).
  Proof.
    intros k j. split.
    - eapply Permutation_NoDup; [apply Permutation_sym, HT|apply zrange_NoDup].
    - eapply Permutation_in; [apply Permutation_sym, HT|]. apply zrange_In.
      destruct (IoProofs1.rank_0 lat Hv). lia.
  Qed.

  (** Rank 0 adds the old value, then all are combined. *)
  Lemma combined : forall op v j old (x : Z -> V), op = rv_op v ->
    (forall r, is_rank lat r -> x r = if r =? 0 then op (local v r j) old else local v r j) ->
    forall k G sites, represents lat (fun r i => rv_g v r i j) G -> enumerates (l_size lat) p sites ->
    combine_ranks op (T k j) x = rv_op v old (total (rv_op v) (rv_unit v) (map G sites)).
  Proof.
    intros op v j old x -> Hx k G sites HG He. destruct (HT_nodup k j) as [N1 N2].
    rewrite (combine_total _ _ (rv_monoid v)).
    rewrite (map_ext_In _ _ x (fun r => if r =? 0 then rv_op v (local v r j) old else local v r j)).
    - rewrite (total_extra _ _ (rv_monoid v)) by auto. f_equal.
      rewrite (total_perm _ _ (rv_monoid v) _ _ (Permutation_map (fun r => local v r j) (HT k j))).
      apply (rank_sums lat Hv V (rv_op v) (rv_unit v) (rv_monoid v) p (fun r i => rv_g v r i j) G sites HG He).
    - intros r Hr. apply Hx. apply (rank_range lat). eapply Permutation_in; [apply HT|exact Hr].
  Qed.

  (** ** Buffers *)
  Definition entries (ws : list (rvar V)) : list (Z * nat) :=
    flat_map (fun v => map (fun j => (rv_name v, j)) (seq 0 (rv_words v))) ws.

  (** The buffer holds the entries [E] with the temporaries' values. *)
  Definition buf_holds (tmp : vmem V) (E : list (Z * nat)) (b : rbuf V) : Prop :=
    b_n b = Z.of_nat (length E) /\
    forall i, (i < length E)%nat -> exists k j, nth_error E i = Some (k, j) /\ b_ptr b (Z.of_nat i) = (k, j) /\
      forall r, b_val b r (Z.of_nat i) = tmp k r j.

  Lemma buf_fill_ok : forall (x : Z -> nat -> V) k n a b, (forall i, In i (seq a n) -> 0 <= b_n b + Z.of_nat i < b_size b) ->
    exists b', buf_fill V x k (seq a n) b = Some b' /\ b_n b' = b_n b /\ b_size b' = b_size b /\
      (forall i, (forall j, In j (seq a n) -> i <> b_n b + Z.of_nat j) -> b_ptr b' i = b_ptr b i /\ forall r, b_val b' r i = b_val b r i) /\
      (forall j, In j (seq a n) -> b_ptr b' (b_n b + Z.of_nat j) = (k, j) /\ forall r, b_val b' r (b_n b + Z.of_nat j) = x r j).
  Proof.
    intros x k. induction n as [|n IH]; intros a b Hb; cbn [seq buf_fill].
    - exists b. split; auto. split; auto. split; auto. split; auto. intros j [].
    - unfold buf_put at 1. assert (H0 := Hb a ltac:(simpl; auto)).
      replace ((0 <=? b_n b + Z.of_nat a) && (b_n b + Z.of_nat a <? b_size b)) with true by lia.
      set (b1 := mkRbuf _ _ _ _). destruct (IH (S a) b1) as (b' & A & B & C & D & F).
      { subst b1. cbn [b_n b_size]. intros i Hi. apply Hb. simpl. auto. }
      subst b1. cbn [b_n b_size b_ptr b_val] in *. exists b'. split; auto. split; auto. split; auto. split.
      + intros i Hi. destruct (D i) as [D1 D2]; [intros j Hj; apply Hi; simpl; auto|].
        assert (Hne := Hi a ltac:(simpl; auto)). rewrite D1, zupd_other by auto. split; auto.
        intros r. rewrite D2, zupd_other by auto. auto.
      + intros j [<-|Hj]; [|apply F; auto]. destruct (D (b_n b + Z.of_nat a)) as [D1 D2].
        { intros j Hj. apply in_seq in Hj. lia. }
        rewrite D1, zupd_same. split; auto. intros r. rewrite D2, zupd_same. auto.
  Qed.

  Lemma buf_setup_ok : forall tmp E v b, buf_holds tmp E b ->
    exists b', buf_setup V (tmp (rv_name v)) (rv_name v) (rv_words v) b = Some b' /\ buf_holds tmp (E ++ entries [v]) b'.
  Proof.
    intros tmp E v b [Hn HE]. unfold buf_setup. cbv zeta.
    set (b1 := mkRbuf _ _ _ _). assert (Hb1 : b_n b1 = b_n b) by auto.
    destruct (buf_fill_ok (tmp (rv_name v)) (rv_name v) (rv_words v) 0 b1) as (b' & A & B & C & D & F).
    { subst b1. cbn [b_n b_size]. intros i Hi. apply in_seq in Hi. destruct (Z.ltb_spec (b_size b) (Z.of_nat (rv_words v) + b_n b)); lia. }
    rewrite A. eexists. split; [reflexivity|]. unfold entries. cbn [flat_map]. rewrite app_nil_r.
    split; cbn [b_n b_ptr b_val].
    - rewrite B, Hb1, Hn, app_length, map_length, seq_length. lia.
    - intros i Hi. rewrite app_length, map_length, seq_length in Hi.
      destruct (Nat.lt_ge_cases i (length E)) as [Hlt|Hge].
      + destruct (HE i Hlt) as (k & j & E1 & E2 & E3). exists k, j. rewrite nth_error_app1 by auto. split; auto.
        destruct (D (Z.of_nat i)) as [D1 D2].
        { intros j' Hj'. rewrite Hb1, Hn. lia. }
        rewrite D1. split; auto. intros r. rewrite D2. apply E3.
      + exists (rv_name v), (i - length E)%nat. rewrite nth_error_app2 by auto. split.
        { rewrite nth_error_map. rewrite (nth_error_nth' _ 0%nat) by (rewrite seq_length; lia). rewrite seq_nth by lia. auto. }
        assert (Hin : In (i - length E)%nat (seq 0 (rv_words v))) by (apply in_seq; lia).
        destruct (F _ Hin) as [F1 F2]. rewrite Hb1, Hn in F1, F2.
        replace (Z.of_nat (length E) + Z.of_nat (i - length E)) with (Z.of_nat i) in * by lia. auto.
  Qed.

  Lemma buf_holds_ext : forall tmp tmp' E b, buf_holds tmp E b -> (forall k j, In (k, j) E -> tmp' k = tmp k) -> buf_holds tmp' E b.
  Proof.
    intros tmp tmp' E b [H1 H2] H. split; auto. intros i Hi. destruct (H2 i Hi) as (k & j & A & B & C).
    exists k, j. split; auto. split; auto. intros r. rewrite C, (H k j); auto. eapply nth_error_In; eauto.
  Qed.

  Definition kind_of (kd : rkind) (ws : list (rvar V)) : list (rvar V) :=
    filter (fun v => negb (rv_prod v) && match rv_kind v, kd with KDouble, KDouble | KFloat, KFloat | KOther, KOther => true | _, _ => false end) ws.

  Lemma entries_app : forall a b, entries (a ++ b) = entries a ++ entries b.
  Proof. intros. unfold entries. apply flat_map_app. Qed.

  Lemma entries_In : forall ws k j, In (k, j) (entries ws) <-> exists v, In v ws /\ rv_name v = k /\ (j < rv_words v)%nat.
  Proof.
    intros ws k j. unfold entries. rewrite in_flat_map. split.
    - intros (v & Hin & Hj). apply in_map_iff in Hj. destruct Hj as (j' & E & Hj). inversion E; subst. apply in_seq in Hj.
      exists v. split; auto. split; auto. lia.
    - intros (v & Hin & <- & Hj). exists v. split; auto. apply in_map_iff. exists j. split; auto. apply in_seq. lia.
  Qed.

  Lemma sum_setups_ok : forall all ws pre bd bf tmp, NoDup (map rv_name (pre ++ ws)) ->
    buf_holds tmp (entries (kind_of KDouble pre)) bd -> buf_holds tmp (entries (kind_of KFloat pre)) bf ->
    exists bd' bf' tmp', sum_setups V add T all ws (bd, bf, tmp) = Some (bd', bf', tmp') /\
      buf_holds tmp' (entries (kind_of KDouble (pre ++ ws))) bd' /\ buf_holds tmp' (entries (kind_of KFloat (pre ++ ws))) bf' /\
      (forall v, In v ws -> rv_prod v = false -> rv_kind v = KOther ->
         tmp' (rv_name v) = reduce_words V T add all (rv_name v) (rv_words v) (tmp (rv_name v))) /\
      (forall k, (forall v, In v ws -> rv_prod v = false -> rv_kind v = KOther -> rv_name v <> k) -> tmp' k = tmp k).
  Proof.
    intros all. induction ws as [|w ws IH]; intros pre bd bf tmp Hn Hd Hf; cbn [sum_setups].
    - exists bd, bf, tmp. rewrite app_nil_r. split; auto. split; auto. split; auto. split; auto. intros v [].
    - assert (Hn' : NoDup (map rv_name ((pre ++ [w]) ++ ws))) by (rewrite <- app_assoc; auto).
      assert (Hw : ~ In (rv_name w) (map rv_name pre) /\ ~ In (rv_name w) (map rv_name ws)).
      { rewrite map_app in Hn. cbn [map] in Hn. apply NoDup_remove_2 in Hn. rewrite in_app_iff in Hn. tauto. }
      assert (Hk : forall kd, kind_of kd (pre ++ [w]) = kind_of kd pre ++ kind_of kd [w]) by (intros; apply filter_app).
      assert (Hpre : forall k j kd, In (k, j) (entries (kind_of kd pre)) -> k <> rv_name w).
      { intros k j kd Hin E. apply entries_In in Hin. destruct Hin as (v & Hin & Ek & _). apply filter_In in Hin.
        apply (proj1 Hw). rewrite <- E, <- Ek. apply in_map. apply Hin. }
      assert (FIN : forall bd1 bf1 tmp1, sum_setup V add T all w (bd, bf, tmp) = Some (bd1, bf1, tmp1) ->
        buf_holds tmp1 (entries (kind_of KDouble (pre ++ [w]))) bd1 -> buf_holds tmp1 (entries (kind_of KFloat (pre ++ [w]))) bf1 ->
        (rv_prod w = false -> rv_kind w = KOther -> tmp1 (rv_name w) = reduce_words V T add all (rv_name w) (rv_words w) (tmp (rv_name w))) ->
        (forall k, (rv_prod w = false -> rv_kind w = KOther -> rv_name w <> k) -> tmp1 k = tmp k) ->
        exists bd' bf' tmp', match sum_setup V add T all w (bd, bf, tmp) with Some s' => sum_setups V add T all ws s' | None => None end = Some (bd', bf', tmp') /\
          buf_holds tmp' (entries (kind_of KDouble (pre ++ w :: ws))) bd' /\ buf_holds tmp' (entries (kind_of KFloat (pre ++ w :: ws))) bf' /\
          (forall v, In v (w :: ws) -> rv_prod v = false -> rv_kind v = KOther ->
             tmp' (rv_name v) = reduce_words V T add all (rv_name v) (rv_words v) (tmp (rv_name v))) /\
          (forall k, (forall v, In v (w :: ws) -> rv_prod v = false -> rv_kind v = KOther -> rv_name v <> k) -> tmp' k = tmp k)).
      { intros bd1 bf1 tmp1 E Hd1 Hf1 Hs1 Hk1. rewrite E. destruct (IH (pre ++ [w]) bd1 bf1 tmp1 Hn' Hd1 Hf1) as (bd' & bf' & tmp' & A & B & C & D & F).
        rewrite <- app_assoc in B, C. exists bd', bf', tmp'. split; auto. split; auto. split; auto. split.
        - intros v [->|Hin] Hp Hkd.
          + rewrite F; auto. intros v' Hin' _ _ Ev. apply (proj2 Hw). rewrite <- Ev. apply in_map. auto.
          + rewrite D by auto. rewrite Hk1; auto. intros _ _ Ev. apply (proj2 Hw). rewrite Ev. apply in_map. auto.
        - intros k Hkn. rewrite F by (intros; apply Hkn; simpl; auto). apply Hk1. intros; apply Hkn; simpl; auto. }
      unfold sum_setup at 1 in FIN. unfold sum_setup at 1 in FIN. unfold sum_setup at 1.
      destruct (rv_prod w) eqn:Ep.
      { apply (FIN bd bf tmp); auto; try discriminate.
        - rewrite Hk. unfold kind_of at 2. cbn [filter]. rewrite Ep. cbn [negb andb]. rewrite app_nil_r. auto.
        - rewrite Hk. unfold kind_of at 2. cbn [filter]. rewrite Ep. cbn [negb andb]. rewrite app_nil_r. auto. }
      destruct (rv_kind w) eqn:Ek.
      + destruct (buf_setup_ok tmp _ w bd Hd) as (b' & A & B). rewrite A in *. apply (FIN b' bf tmp); auto; try discriminate.
        * rewrite Hk. unfold kind_of at 2. cbn [filter]. rewrite Ep, Ek. cbn [negb andb]. rewrite entries_app. auto.
        * rewrite Hk. unfold kind_of at 2. cbn [filter]. rewrite Ep, Ek. cbn [negb andb]. rewrite app_nil_r. auto.
      + destruct (buf_setup_ok tmp _ w bf Hf) as (b' & A & B). rewrite A in *. apply (FIN bd b' tmp); auto; try discriminate.
        * rewrite Hk. unfold kind_of at 2. cbn [filter]. rewrite Ep, Ek. cbn [negb andb]. rewrite app_nil_r. auto.
        * rewrite Hk. unfold kind_of at 2. cbn [filter]. rewrite Ep, Ek. cbn [negb andb]. rewrite entries_app. auto.
      + eapply FIN; [reflexivity| | | |].
        * rewrite Hk. unfold kind_of at 2. cbn [filter]. rewrite Ep, Ek. cbn [negb andb]. rewrite app_nil_r.
          eapply buf_holds_ext; [exact Hd|]. intros k j Hin. unfold set_name. apply zupd_other. eapply Hpre; eauto.
        * rewrite Hk. unfold kind_of at 2. cbn [filter]. rewrite Ep, Ek. cbn [negb andb]. rewrite app_nil_r.
          eapply buf_holds_ext; [exact Hf|]. intros k j Hin. unfold set_name. apply zupd_other. eapply Hpre; eauto.
        * intros _ _. unfold set_name. apply zupd_same.
        * intros k Hne. unfold set_name. apply zupd_other. intros ->. apply (Hne eq_refl eq_refl). auto.
  Qed.

  (** Writing the results through the pointers. *)
  Lemma buf_reduce_ok : forall all tmp E b, NoDup E -> buf_holds tmp E b ->
    b_n (fst (buf_reduce V add T all b tmp)) = 0 /\
    (forall k j, In (k, j) E -> forall r, snd (buf_reduce V add T all b tmp) k r j =
        if all || (r =? 0) then combine_ranks add (T k j) (fun r => tmp k r j) else tmp k r j) /\
    (forall k j r, ~ In (k, j) E -> snd (buf_reduce V add T all b tmp) k r j = tmp k r j).
  Proof.
    intros all tmp E b Hn [Hb HE]. split; auto. unfold buf_reduce. cbn [snd]. rewrite Hb, Nat2Z.id.
    assert (Hval : forall i k j, nth_error E i = Some (k, j) -> b_ptr b (Z.of_nat i) = (k, j) /\
               combine_ranks add (T k j) (fun r => b_val b r (Z.of_nat i)) = combine_ranks add (T k j) (fun r => tmp k r j)).
    { intros i k j Hi. assert (Hl : (i < length E)%nat) by (apply nth_error_Some; congruence).
      destruct (HE i Hl) as (k' & j' & A & B & C). rewrite A in Hi. inversion Hi; subst. split; auto.
      generalize (T k j). clear -C. induction r as [r|x IHx y IHy]; cbn [combine_ranks]; [apply C|congruence]. }
    set (f := fun (m : vmem V) i => let '(k, j) := b_ptr b i in
       set_name V m k (fun r => if all || (r =? 0) then
           (fun j' => if Nat.eqb j' j then combine_ranks add (T k j) (fun r => b_val b r i) else m k r j') else m k r)).
    assert (MAIN : forall n a m, (a + n = length E)%nat ->
      (forall k j r, ~ In (k, j) (skipn a E) -> fold_left f (zrange (Z.of_nat a) n) m k r j = m k r j) /\
      (forall k j r, In (k, j) (skipn a E) -> fold_left f (zrange (Z.of_nat a) n) m k r j =
         if all || (r =? 0) then combine_ranks add (T k j) (fun r => tmp k r j) else m k r j)).
    { induction n as [|n IH]; intros a m Ha; cbn [zrange fold_left].
      - rewrite skipn_all2 by lia. split; auto. intros k j r [].
      - destruct (nth_error E a) as [[k0 j0]|] eqn:Ea; [|apply nth_error_None in Ea; lia].
        assert (Hsk : skipn a E = (k0, j0) :: skipn (S a) E).
        { clear -Ea. revert a Ea. induction E as [|x E IH]; intros [|a] Ea; cbn in *; try discriminate; [congruence|]. apply IH. auto. }
        assert (Hni : ~ In (k0, j0) (skipn (S a) E)).
        { assert (Hns : NoDup (skipn a E)). { rewrite <- (firstn_skipn a E) in Hn. clear -Hn. induction (firstn a E); auto. inversion Hn; auto. }
          rewrite Hsk in Hns. inversion Hns; auto. }
        replace (Z.of_nat a + 1) with (Z.of_nat (S a)) by lia.
        destruct (IH (S a) (f m (Z.of_nat a)) ltac:(lia)) as [I1 I2]. rewrite Hsk.
        destruct (Hval a k0 j0 Ea) as [P1 P2].
        assert (Hf : forall k r j, f m (Z.of_nat a) k r j = if (k =? k0) && (Nat.eqb j j0) && (all || (r =? 0)) then combine_ranks add (T k0 j0) (fun r => tmp k0 r j0) else m k r j).
        { intros k r j. unfold f. rewrite P1. unfold set_name, zupd. destruct (Z.eqb_spec k k0) as [->|]; cbn [andb]; auto.
          destruct (all || (r =? 0)); rewrite ?andb_true_r, ?andb_false_r; auto. destruct (Nat.eqb_spec j j0) as [->|]; auto. }
        split; intros k j r Hin.
        + rewrite I1 by (simpl in Hin; tauto). rewrite Hf. destruct (Z.eqb_spec k k0) as [->|]; auto. destruct (Nat.eqb_spec j j0) as [->|]; auto.
          elim Hin. simpl. auto.
        + destruct Hin as [Heq|Hin].
          * inversion Heq; subst k0 j0. rewrite I1 by auto. rewrite Hf, Z.eqb_refl, Nat.eqb_refl. auto.
          * rewrite I2 by auto. rewrite Hf. destruct (all || (r =? 0)); auto. rewrite andb_false_r. auto. }
    destruct (MAIN (length E) 0%nat tmp) as [M1 M2]; [lia|]. cbn [skipn] in M1, M2. split; auto.
  Qed.

  Lemma entries_NoDup : forall ws, NoDup (map rv_name ws) -> NoDup (entries ws).
  Proof.
    intros ws Hn. unfold entries. apply NoDup_flat_map.
    - eapply NoDup_map_inv; eauto.
    - intros v _. apply FinFun.Injective_map_NoDup; [intros a b E; congruence|apply seq_NoDup].
    - intros a b x Ha Hb Hxa Hxb. apply in_map_iff in Hxa. apply in_map_iff in Hxb.
      destruct Hxa as (j & <- & _). destruct Hxb as (j' & E & _). injection E as E1 E2.
      clear -Hn Ha Hb E1. induction ws as [|w ws IH]; [destruct Ha|]. cbn [map] in Hn. inversion Hn as [|? ? Hw Hn']; subst.
      destruct Ha as [->|Ha], Hb as [->|Hb]; auto.
      + elim Hw. rewrite <- E1. apply in_map; auto.
      + elim Hw. rewrite E1. apply in_map; auto.
  Qed.

  Lemma kind_nodup : forall kd ws, NoDup (map rv_name ws) -> NoDup (map rv_name (kind_of kd ws)).
  Proof.
    intros kd ws. unfold kind_of. induction ws as [|w ws IH]; cbn [filter map]; intros Hn; auto. inversion Hn as [|? ? Hw Hn']; subst.
    destruct (_ && _); cbn [map]; auto. constructor; auto. intros Hin. apply Hw. apply in_map_iff in Hin.
    destruct Hin as (x & E & Hin). apply filter_In in Hin. rewrite <- E. apply in_map. apply Hin.
  Qed.

  Lemma same_var : forall v w, In v vs -> In w vs -> rv_name v = rv_name w -> v = w.
  Proof.
    intros v w Ha Hb E1. clear -Hnd Ha Hb E1. induction vs as [|x ws IH]; [destruct Ha|]. cbn [map] in Hnd. inversion Hnd as [|? ? Hw Hn']; subst.
    destruct Ha as [->|Ha], Hb as [->|Hb]; auto.
    - elim Hw. rewrite E1. apply in_map; auto.
    - elim Hw. rewrite <- E1. apply in_map; auto.
  Qed.

  Theorem reduction_loop_ok : forall all bd bf var tmp, b_n bd = 0 -> b_n bf = 0 ->
    exists var' bd' bf', reduction_loop add mul zero one T lat p vs all bd bf var tmp = Some (var', bd', bf', true) /\
      b_n bd' = 0 /\ b_n bf' = 0 /\
      (forall v, In v vs -> forall j, (j < rv_words v)%nat ->
       forall G sites, represents lat (fun r i => rv_g v r i j) G -> enumerates (l_size lat) p sites ->
       forall r, is_rank lat r -> all = true \/ r = 0 \/ rv_prod v = true ->
         var' (rv_name v) r j = rv_op v (var (rv_name v) 0 j) (total (rv_op v) (rv_unit v) (map G sites))) /\
      (forall v j r, In v vs -> (rv_words v <= j)%nat -> var' (rv_name v) r j = var (rv_name v) r j) /\
      (forall k, ~ In k (map rv_name vs) -> var' k = var k).
  Proof.
    intros all bd bf var tmp Bd Bf. unfold reduction_loop. cbv zeta.
    set (tmp1 := site_loop V add mul lat p vs (reduction_init V zero one vs tmp)).
    assert (H1 : forall v r j, In v vs -> (j < rv_words v)%nat -> tmp1 (rv_name v) r j = local v r j) by (intros; apply site_loop_ok; auto).
    clearbody tmp1.
    destruct (pair_fold_ok _ _ prod_fold vs (var, tmp1) Hnd) as [P1 P2].
    destruct (fold_left (fun s v => product_result V mul T v s) vs (var, tmp1)) as [var2 tmp2]. cbn [fst snd] in P1, P2.
    destruct (pair_fold_ok _ _ old_fold vs (var2, tmp2) Hnd) as [Q1 Q2].
    destruct (fold_left (fun s v => add_old V add v s) vs (var2, tmp2)) as [var3 tmp3]. cbn [fst snd] in Q1, Q2.
    destruct (sum_setups_ok all vs [] bd bf tmp3 Hnd) as (bd4 & bf4 & tmp4 & A & B & C & D & F).
    { split; auto. cbn. intros; lia. } { split; auto. cbn. intros; lia. }
    cbn [app] in B, C. rewrite A.
    assert (Nd := entries_NoDup _ (kind_nodup KDouble vs Hnd)). assert (Nf := entries_NoDup _ (kind_nodup KFloat vs Hnd)).
    destruct (buf_reduce_ok all tmp4 _ bd4 Nd B) as (R1 & R2 & R3).
    destruct (buf_reduce V add T all bd4 tmp4) as [bd5 tmp5]. cbn [fst snd] in R1, R2, R3.
    assert (NOT : forall kd v j, In v vs -> In (rv_name v, j) (entries (kind_of kd vs)) ->
              rv_prod v = false /\ rv_kind v = kd /\ (j < rv_words v)%nat).
    { intros kd v j Hin Hen. apply entries_In in Hen. destruct Hen as (w & Hw & E & Hj). unfold kind_of in Hw. apply filter_In in Hw.
      destruct Hw as [Hw Hk]. assert (w = v) by (apply same_var; auto). subst w. destruct (rv_prod v); [discriminate|].
      split; auto. split; auto. destruct (rv_kind v), kd; auto; discriminate. }
    assert (ISIN : forall kd v j, In v vs -> rv_prod v = false -> rv_kind v = kd -> (j < rv_words v)%nat -> In (rv_name v, j) (entries (kind_of kd vs))).
    { intros kd v j Hin Hp Hk Hj. apply entries_In. exists v. split; auto. unfold kind_of. apply filter_In. split; auto.
      rewrite Hp, Hk. destruct kd; auto. }
    assert (C5 : buf_holds tmp5 (entries (kind_of KFloat vs)) bf4).
    { destruct C as [C1 C2]. split; auto. intros i Hi. destruct (C2 i Hi) as (k & j & X1 & X2 & X3). exists k, j. split; auto. split; auto.
      intros r. rewrite X3. symmetry. apply R3. intros Hin. apply nth_error_In in X1.
      apply entries_In in X1. destruct X1 as (v & Hv1 & E1 & Hj). subst k. unfold kind_of in Hv1. apply filter_In in Hv1. destruct Hv1 as [Hv1 Hv2].
      destruct (NOT KDouble v j Hv1 Hin) as (Y1 & Y2 & _). rewrite Y1, Y2 in Hv2. discriminate. }
    destruct (buf_reduce_ok all tmp5 _ bf4 Nf C5) as (S1 & S2 & S3).
    destruct (buf_reduce V add T all bf4 tmp5) as [bf5 tmp6]. cbn [fst snd] in S1, S2, S3.
    set (fin := fold_left (fun m v => copy_result V v tmp6 m) vs var3).
    exists fin, bd5, bf5. split; [reflexivity|]. split; auto. split; auto.
    assert (CR : forall k, (~ In k (map rv_name vs) -> fin k = var3 k) /\
       (forall v, In v vs -> fin (rv_name v) = if rv_prod v then var3 (rv_name v) else fun r => words V (rv_words v) (tmp6 (rv_name v) r) (var3 (rv_name v) r))).
    { intros k. exact (fold_names _ _ rv_name (fun v x => if rv_prod v then x else fun r => words V (rv_words v) (tmp6 (rv_name v) r) (x r))
      (fun m v => copy_result V v tmp6 m)
      ltac:(intros m0 v0 k0; unfold copy_result, set_name, zupd; destruct (rv_prod v0); destruct (Z.eqb_spec k0 (rv_name v0)) as [->|]; auto) vs var3 k Hnd).
    }
    clearbody fin.
    assert (HQ : forall v, In v vs -> var3 (rv_name v) = var2 (rv_name v)).
    { intros v Hin. assert (E := Q2 v Hin). unfold fold_old in E. destruct (rv_prod v); inversion E; auto. }
    split; [|split].
    - intros v Hin j Hj G sites HG He r Hr Hor. rewrite (proj2 (CR 0) v Hin). assert (Lt : (j <? rv_words v)%nat = true) by (apply Nat.ltb_lt; auto).
      destruct (rv_prod v) eqn:Ep.
      + rewrite (HQ v Hin). assert (E := P2 v Hin). unfold fprod in E. rewrite Ep in E. cbn [fst snd] in E. injection E as E1 E2.
        rewrite E1. unfold words at 1. rewrite Lt. unfold reduce_words. cbn [orb]. unfold words at 1. rewrite Lt.
        assert (Eop : rv_op v = mul) by (unfold ReduceModel.rv_op; rewrite Ep; auto).
        apply (combined mul v j); auto. intros s Hs. unfold words.
        destruct (Z.eqb_spec s 0) as [->|]; rewrite ?Lt; rewrite H1 by auto; auto.
      + unfold words. rewrite Lt.
        assert (Eop : rv_op v = add) by (unfold ReduceModel.rv_op; rewrite Ep; auto).
        assert (Eq := Q2 v Hin). unfold fold_old in Eq. rewrite Ep in Eq. cbn [fst snd] in Eq. injection Eq as Eq1 Eq2.
        assert (Epp := P2 v Hin). unfold fprod in Epp. rewrite Ep in Epp. injection Epp as Ep1 Ep2.
        assert (COMB : forall k, combine_ranks add (T k j) (fun r => tmp3 (rv_name v) r j) =
                  rv_op v (var (rv_name v) 0 j) (total (rv_op v) (rv_unit v) (map G sites))).
        { intros k. apply (combined add v j); auto. intros s Hs. rewrite Eq2. cbv beta.
          destruct (Z.eqb_spec s 0) as [->|]; unfold words; rewrite ?Lt, ?Eq1, ?Ep1, Ep2, H1 by auto; auto. }
        assert (Or : all || (r =? 0) = true).
        { destruct Hor as [->|[->|E]]; auto; [apply orb_true_r|congruence]. }
        assert (K4 : rv_kind v <> KOther -> tmp4 (rv_name v) = tmp3 (rv_name v)).
        { intros Hk. apply F. intros w Hw _ Hk' E. assert (w = v) by (apply same_var; auto). congruence. }
        destruct (rv_kind v) eqn:Ek.
        * rewrite S3. { rewrite R2 by (apply ISIN; auto). rewrite Or, K4 by congruence. apply COMB. }
          intros Hx. apply (NOT KFloat) in Hx; auto. destruct Hx as (_ & Hx & _). congruence.
        * rewrite S2 by (apply ISIN; auto). rewrite Or.
          rewrite <- (COMB (rv_name v)). rewrite <- K4 by congruence. generalize (T (rv_name v) j).
          assert (E5 : forall s, tmp5 (rv_name v) s j = tmp4 (rv_name v) s j).
          { intros s. apply R3. intros Hx. apply (NOT KDouble) in Hx; auto. destruct Hx as (_ & Hx & _). congruence. }
          clear -E5. induction r as [r|x IHx y IHy]; cbn [combine_ranks]; [apply E5|congruence].
        * rewrite S3. { rewrite R3. { rewrite D by auto. unfold reduce_words. rewrite Or. unfold words. rewrite Lt. apply COMB. }
            intros Hx. apply (NOT KDouble) in Hx; auto. destruct Hx as (_ & Hx & _). congruence. }
          intros Hx. apply (NOT KFloat) in Hx; auto. destruct Hx as (_ & Hx & _). congruence.
    - intros v j r Hin Hj. rewrite (proj2 (CR 0) v Hin). assert (Lt : (j <? rv_words v)%nat = false) by (apply Nat.ltb_ge; auto).
      assert (E := P2 v Hin). unfold fprod in E. destruct (rv_prod v).
      + rewrite (HQ v Hin). injection E as E1 E2. rewrite E1. unfold words at 1. rewrite Lt. auto.
      + unfold words. rewrite Lt. rewrite (HQ v Hin). injection E as E1 E2. rewrite E1. auto.
    - intros k Hk. rewrite (proj1 (CR k)) by auto. destruct (Q1 k Hk) as [-> _]. apply P1. auto.
  Qed.
End C18.
