(** Proofs about the list of clusters. *)
From Coq Require Import Sorted.
From Verif Require Import Common LayoutModel LayoutSpec ReduceSpec SelectModel ClusterModel ClusterSpec ClusterProofs1.

Definition below (a b : Z * Z) : Prop := fst a < fst b.

(** Number of sites a list gives for a label. *)
Definition val (c : list (Z * Z)) (l : Z) : Z := zsum (map (fun p => if fst p =? l then snd p else 0) c).
Definition occ (labels : list Z) (l : Z) : Z := Z.of_nat (count_occ Z.eq_dec labels l).

(** A sorted list with positive entries. *)
Definition good (c : list (Z * Z)) : Prop := StronglySorted below c /\ Forall (fun p => 0 < snd p) c.

(** The list [c] is the list of the non-background labels of [labels]. *)
Definition counts (labels : list Z) (c : list (Z * Z)) : Prop :=
  good c /\ forall l, val c l = if l =? background_label then 0 else occ labels l.

Lemma val_cons : forall a n c l, val ((a, n) :: c) l = (if a =? l then n else 0) + val c l.
Proof. reflexivity. Qed.

Lemma val_above : forall c l, Forall (fun p => l < fst p) c -> val c l = 0.
Proof.
  induction c as [|[a n] c IH]; intros l H; [reflexivity|]. inversion H; subst. cbn in H2. rewrite val_cons, IH by auto.
  destruct (Z.eqb_spec a l); lia.
Qed.

Lemma val_nonneg : forall c l, Forall (fun p => 0 < snd p) c -> 0 <= val c l.
Proof.
  induction c as [|[a n] c IH]; intros l H; [cbn; lia|]. inversion H; subst. cbn in H2. rewrite val_cons.
  assert (A := IH l H3). destruct (a =? l); lia.
Qed.

Lemma Forall_above : forall (c : list (Z * Z)) a b, b <= a -> Forall (fun p => a < fst p) c -> Forall (fun p => b < fst p) c.
Proof. intros. eapply Forall_impl; [|eauto]. cbn. intros. lia. Qed.

Lemma good_cons : forall a n c, good ((a, n) :: c) <-> good c /\ 0 < n /\ Forall (fun p => a < fst p) c.
Proof.
  intros. unfold good. split.
  - intros [H1 H2]. inversion H1; subst. inversion H2; subst. auto.
  - intros ((H1 & H2) & H3 & H4). split; constructor; auto.
Qed.

Lemma val_In : forall c l n, good c -> (In (l, n) c <-> 0 < n /\ val c l = n).
Proof.
  induction c as [|[a m] c IH]; intros l n H.
  - cbn. split; [tauto|lia].
  - apply good_cons in H. destruct H as (Hg & Hm & Ha). rewrite val_cons. cbn [In]. rewrite (IH l n Hg).
    destruct (Z.eqb_spec a l) as [->|Hne].
    + rewrite (val_above c l) by auto. split.
      * intros [E|[H1 H2]]; [injection E as <-; lia|lia].
      * intros [H1 H2]. left. f_equal. lia.
    + rewrite Z.add_0_l. split; [intros [E|H]; [congruence|auto]|auto].
Qed.

(** ** Merging *)
Lemma merge_nil_r : forall a, merge a [] = a.
Proof. destruct a as [|[l n] a]; reflexivity. Qed.

Lemma merge_cons : forall la na a lb nb b,
  merge ((la, na) :: a) ((lb, nb) :: b) =
    if la <? lb then (la, na) :: merge a ((lb, nb) :: b)
    else if la =? lb then (la, na + nb) :: merge a b
    else (lb, nb) :: merge ((la, na) :: a) b.
Proof. reflexivity. Qed.

Lemma merge_nil_l : forall b, merge [] b = b.
Proof. reflexivity. Qed.

Lemma merge_ok : forall a b, good a -> good b ->
  good (merge a b) /\ (forall l, val (merge a b) l = val a l + val b l) /\
  (forall l, Forall (fun p => l < fst p) a -> Forall (fun p => l < fst p) b -> Forall (fun p => l < fst p) (merge a b)).
Proof.
  induction a as [|[la na] a IHa]; intros b Ha Hb.
  - rewrite merge_nil_l. split; [auto|]. split; [intros; reflexivity|auto].
  - induction b as [|[lb nb] b IHb].
    + rewrite merge_nil_r. split; auto. split; [|auto]. intros. change (val [] l) with 0. lia.
    + rewrite merge_cons. assert (Ha' := Ha). assert (Hb' := Hb).
      apply good_cons in Ha'. apply good_cons in Hb'. destruct Ha' as (Ga & Na & La), Hb' as (Gb & Nb & Lb).
      destruct (Z.ltb_spec la lb) as [Hlt|Hge]; [|destruct (Z.eqb_spec la lb) as [->|Hne]].
      * destruct (IHa ((lb, nb) :: b) Ga Hb) as (I1 & I2 & I3). split; [|split].
        -- apply good_cons. split; auto. split; auto. apply I3; auto. constructor; [cbn; lia|].
           eapply Forall_above; [|eauto]. lia.
        -- intros l. rewrite !val_cons, I2, !val_cons. lia.
        -- intros l H1 H2. inversion H1; subst. constructor; auto.
      * destruct (IHa b Ga Gb) as (I1 & I2 & I3). split; [|split].
        -- apply good_cons. split; auto. split; [lia|]. apply I3; auto.
        -- intros l. rewrite !val_cons, I2. destruct (lb =? l); lia.
        -- intros l H1 H2. inversion H1; subst. inversion H2; subst. constructor; auto.
      * destruct (IHb Gb) as (I1 & I2 & I3). split; [|split].
        -- apply good_cons. split; auto. split; auto. apply I3; auto. constructor; [cbn; lia|].
           eapply Forall_above; [|eauto]. lia.
        -- intros l. rewrite val_cons, I2, !val_cons. lia.
        -- intros l H1 H2. inversion H2; subst. constructor; auto.
Qed.

Lemma occ_app : forall a b l, occ (a ++ b) l = occ a l + occ b l.
Proof. intros. unfold occ. rewrite count_occ_app. lia. Qed.

Lemma merge_counts : forall l1 c1 l2 c2, counts l1 c1 -> counts l2 c2 -> counts (l1 ++ l2) (merge c1 c2).
Proof.
  intros l1 c1 l2 c2 [G1 V1] [G2 V2]. destruct (merge_ok c1 c2 G1 G2) as (M1 & M2 & _). split; auto.
  intros l. rewrite M2, V1, V2, occ_app. destruct (l =? background_label); lia.
Qed.

(** ** Local lists *)
Lemma insert_In : forall a l x, In x (insert a l) <-> x = a \/ In x l.
Proof.
  induction l as [|b t IH]; intros x; cbn [insert]; [cbn; intuition|].
  destruct (a <=? b); cbn [In]; [intuition|]. rewrite IH. intuition.
Qed.

Lemma insert_occ : forall a l x, occ (insert a l) x = occ (a :: l) x.
Proof.
  intros a l x. unfold occ. f_equal. induction l as [|b t IH]; cbn [insert]; auto.
  destruct (a <=? b); auto. cbn [count_occ] in *. rewrite IH.
  destruct (Z.eq_dec b x), (Z.eq_dec a x); lia.
Qed.

Lemma insert_sorted : forall a l, StronglySorted Z.le l -> StronglySorted Z.le (insert a l).
Proof.
  induction 1 as [|b t Hs IH Hb]; cbn [insert]; [repeat constructor|].
  destruct (Z.leb_spec a b).
  - constructor; [constructor; auto|]. constructor; [auto|]. eapply Forall_impl; [|eauto]. cbn. intros. lia.
  - constructor; auto. apply Forall_forall. intros x Hx. apply insert_In in Hx. destruct Hx as [->|Hx]; [lia|].
    rewrite Forall_forall in Hb. auto.
Qed.

Lemma sort_ok : forall l, StronglySorted Z.le (sort l) /\ (forall x, In x (sort l) <-> In x l) /\
  forall x, occ (sort l) x = occ l x.
Proof.
  induction l as [|a l (I1 & I2 & I3)]; cbn [sort fold_right].
  - split; [constructor|]. split; [tauto|auto].
  - fold (sort l). split; [apply insert_sorted; auto|]. split.
    + intros x. rewrite insert_In, I2. cbn. intuition.
    + intros x. rewrite insert_occ. assert (A := I3 x). unfold occ in *. cbn [count_occ]. destruct (Z.eq_dec a x); lia.
Qed.

Lemma valid_label_type : forall l, valid_label l -> (get_cl_label_type l = 255 <-> l = background_label) /\ l <= background_label.
Proof.
  intros l [->|(t & i & Ht & Hi & ->)].
  - split; [|lia]. rewrite type_background. tauto.
  - unfold background_label. rewrite type_of by lia. split; lia.
Qed.

Lemma occ_cons : forall a l x, occ (a :: l) x = (if a =? x then 1 else 0) + occ l x.
Proof. intros. unfold occ. cbn [count_occ]. destruct (Z.eq_dec a x), (Z.eqb_spec a x); try congruence; lia. Qed.

Lemma occ_zero : forall l x, (forall y, In y l -> y <> x) -> occ l x = 0.
Proof.
  induction l; intros x H; [reflexivity|]. rewrite occ_cons, IHl by (intros; apply H; right; auto).
  destruct (Z.eqb_spec a x); [exfalso; apply (H a); [left; auto|auto]|lia].
Qed.

Lemma runs_ok : forall buf label count, Forall valid_label (label :: buf) -> StronglySorted Z.le (label :: buf) ->
  label <> background_label -> 0 < count ->
  good (count_runs label count buf) /\ Forall (fun p => label <= fst p) (count_runs label count buf) /\
  forall l, val (count_runs label count buf) l =
    (if label =? l then count else 0) + if l =? background_label then 0 else occ buf l.
Proof.
  induction buf as [|b t IH]; intros label count Hv Hs Hb Hc; cbn [count_runs].
  - split; [apply good_cons; repeat split; auto; constructor|]. split; [repeat constructor; cbn; lia|].
    intros l. rewrite val_cons. change (val [] l) with 0. change (occ [] l) with 0. destruct (l =? background_label); lia.
  - inversion Hv as [|? ? V1 V2]; subst. inversion Hs as [|? ? S1 S2]; subst. inversion V2 as [|? ? V3 V4]; subst.
    inversion S1 as [|? ? S3 S4]; subst. inversion S2 as [|? ? S5 S6]; subst.
    destruct (Z.eqb_spec b label) as [->|Hne].
    + destruct (IH label (count + 1)) as (I1 & I2 & I3); auto; [lia|]. split; auto. split; auto.
      intros l. rewrite I3, occ_cons. destruct (Z.eqb_spec label l) as [->|]; [|destruct (l =? background_label); lia].
      destruct (Z.eqb_spec l background_label); [congruence|lia].
    + destruct (valid_label_type b V3) as [Tb Lb]. unfold background.
      destruct (Z.eqb_spec (get_cl_label_type b) 255) as [E|E].
      * apply Tb in E. subst b. split; [apply good_cons; repeat split; auto; constructor|]. split; [repeat constructor; cbn; lia|].
        intros l. rewrite val_cons. change (val [] l) with 0. destruct (Z.eqb_spec l background_label); [lia|].
        rewrite occ_zero; [lia|]. intros y [<-|Hy]; [auto|]. rewrite Forall_forall in S4, V4.
        assert (A := S4 y Hy). destruct (valid_label_type y (V4 y Hy)) as [_ By]. lia.
      * assert (Hbb : b <> background_label) by (intros Eb; apply E, Tb; auto).
        destruct (IH b 1) as (I1 & I2 & I3); auto; [lia|]. split; [|split].
        -- apply good_cons. split; auto. split; auto. eapply Forall_impl; [|exact I2]. cbn. intros. lia.
        -- constructor; [cbn; lia|]. eapply Forall_impl; [|exact I2]. cbn. intros. lia.
        -- intros l. rewrite val_cons, I3, occ_cons. destruct (Z.eqb_spec b l) as [->|]; [|destruct (l =? background_label); lia].
           destruct (Z.eqb_spec l background_label); [congruence|lia].
Qed.

Lemma local_ok : forall buf, Forall valid_label buf -> counts buf (make_local_clist buf).
Proof.
  intros buf Hv. destruct (sort_ok buf) as (S1 & S2 & S3). unfold make_local_clist, counts.
  assert (Hv' : Forall valid_label (sort buf)).
  { rewrite Forall_forall in *. intros x Hx. apply Hv, S2; auto. }
  assert (E : forall l, occ (sort buf) l = occ buf l) by auto. clear S2 S3 Hv.
  destruct (sort buf) as [|b t]; [|inversion Hv' as [|? ? V1 V2]; subst; destruct (valid_label_type b V1) as [Tb Lb]; unfold background;
    destruct (Z.eqb_spec (get_cl_label_type b) 255) as [Eb|Eb]].
  - split; [split; constructor|]. intros l. change (val [] l) with 0. rewrite <- E. change (occ [] l) with 0.
    destruct (l =? background_label); auto.
  - apply Tb in Eb. subst b. split; [split; constructor|]. intros l. change (val [] l) with 0.
    destruct (Z.eqb_spec l background_label); auto. rewrite <- E. symmetry. apply occ_zero.
    inversion S1; subst. intros y [<-|Hy]; auto. rewrite Forall_forall in H2, V2. assert (A := H2 y Hy).
    destruct (valid_label_type y (V2 y Hy)) as [_ By]. lia.
  - assert (Hbb : b <> background_label) by (intros H; apply Eb, Tb; auto).
    destruct (runs_ok t b 1) as (I1 & I2 & I3); auto; [lia|]. split; auto.
    intros l. rewrite I3, <- E, occ_cons. destruct (Z.eqb_spec b l) as [->|]; [|destruct (l =? background_label); lia].
    destruct (Z.eqb_spec l background_label); [congruence|lia].
Qed.

(** ** The tree *)
Section Tree.
  Variable nn : Z.
  Variable bufs : Z -> list Z.
  Hypothesis Hnn : 0 < nn.
  Hypothesis Hbufs : forall r, 0 <= r < nn -> Forall valid_label (bufs r).

  (** Labels of the ranks from a to b - 1. *)
  Definition span (a b : Z) : list Z := concat (map bufs (zrange a (Z.to_nat (b - a)))).

  Lemma span_app : forall a b c, a <= b <= c -> span a c = span a b ++ span b c.
  Proof.
    intros. unfold span. replace (Z.to_nat (c - a)) with (Z.to_nat (b - a) + Z.to_nat (c - b))%nat by lia.
    rewrite zrange_app, map_app, concat_app. do 4 f_equal. lia.
  Qed.

  (** Before the step: rank r, a multiple of the step, has the counts of the ranks
      r, ..., r + step - 1 (as far as they exist). *)
  Definition gathered (step : Z) (clist : Z -> list (Z * Z)) : Prop :=
    forall r, 0 <= r < nn -> r mod step = 0 -> counts (span r (Z.min (r + step) nn)) (clist r).

  Lemma gathered_init : gathered 1 (fun r => make_local_clist (bufs r)).
  Proof.
    intros r Hr _. replace (Z.min (r + 1) nn) with (r + 1) by lia. unfold span.
    replace (Z.to_nat (r + 1 - r)) with 1%nat by lia. cbn [zrange map concat]. rewrite app_nil_r. apply local_ok; auto.
  Qed.

  Lemma mod_double : forall r s, 0 < s -> r mod (2 * s) = 0 -> r mod s = 0 /\ (r + s) mod s = 0.
  Proof.
    intros r s Hs H. apply Z.mod_divide in H; [|lia]. destruct H as (q & ->). split.
    - replace (q * (2 * s)) with (2 * q * s) by ring. apply Z.mod_mul. lia.
    - replace (q * (2 * s) + s) with ((2 * q + 1) * s) by ring. apply Z.mod_mul. lia.
  Qed.

  Lemma gathered_step : forall step clist, 0 < step < nn -> gathered step clist ->
    gathered (2 * step) (merge_step nn step clist).
  Proof.
    intros step clist Hs Hg r Hr Hm. unfold merge_step. rewrite Hm.
    destruct (Z.eqb_spec 0 step); [lia|]. cbn [Z.eqb andb]. destruct (mod_double r step ltac:(lia) Hm) as [M1 M2].
    destruct (Z.ltb_spec (r + step) nn).
    - replace (span r (Z.min (r + 2 * step) nn)) with (span r (Z.min (r + step) nn) ++ span (r + step) (Z.min (r + step + step) nn)).
      + apply merge_counts; apply Hg; auto; lia.
      + replace (Z.min (r + step) nn) with (r + step) by lia. replace (r + step + step) with (r + 2 * step) by lia.
        symmetry. apply span_app. lia.
    - replace (Z.min (r + 2 * step) nn) with (Z.min (r + step) nn) by lia. apply Hg; auto.
  Qed.

  Lemma merge_loop_ok : forall fuel step clist, 0 < step -> nn - step < Z.of_nat fuel -> gathered step clist ->
    exists c, merge_loop fuel nn step clist = Some c /\ counts (span 0 nn) (c 0).
  Proof.
    induction fuel; intros step clist Hs Hf Hg; cbn [merge_loop]; destruct (Z.ltb_spec step nn) as [Hlt|Hge].
    - lia.
    - eexists. split; [reflexivity|]. replace nn with (Z.min (0 + step) nn) at 1 by lia. apply Hg; [lia|apply Z.mod_0_l; lia].
    - apply IHfuel; try lia. apply gathered_step; auto; lia.
    - eexists. split; [reflexivity|]. replace nn with (Z.min (0 + step) nn) at 1 by lia. apply Hg; [lia|apply Z.mod_0_l; lia].
  Qed.

  Lemma counts_list : forall labels c, Forall valid_label labels -> counts labels c -> cluster_list labels c.
  Proof.
    intros labels c Hv [[G1 G2] V]. split; auto. intros l n. rewrite (val_In c l n (conj G1 G2)), V.
    unfold occ. rewrite (count_occ_In Z.eq_dec). destruct (Z.eqb_spec l background_label); split; intros; try lia; tauto.
  Qed.

  Lemma classify_ok : forall fuel, nn <= Z.of_nat fuel ->
    exists res, classify fuel nn bufs = Some (fun _ => res) /\ cluster_list (span 0 nn) res.
  Proof.
    intros fuel Hf. unfold classify. destruct (merge_loop_ok fuel 1 _ ltac:(lia) ltac:(lia) gathered_init) as (c & -> & Hc).
    exists (c 0). split; auto. apply counts_list; auto.
    apply Forall_forall. intros x Hx. apply in_concat in Hx. destruct Hx as (l & Hl & Hx). apply in_map_iff in Hl.
    destruct Hl as (r & <- & Hr). apply zrange_In in Hr. assert (A := Hbufs r). rewrite Forall_forall in A. apply A; auto. lia.
  Qed.

  (** More fuel does not change the result. *)
  Lemma merge_loop_more : forall fuel step clist c, merge_loop fuel nn step clist = Some c ->
    forall fuel', (fuel <= fuel')%nat -> merge_loop fuel' nn step clist = Some c.
  Proof.
    induction fuel; intros step clist c E fuel' Hf; destruct fuel'; cbn [merge_loop] in *; destruct (step <? nn); try discriminate; auto; try lia.
    apply IHfuel; auto. lia.
  Qed.
End Tree.
