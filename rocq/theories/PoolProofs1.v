(** Proofs about the memory pool. *)
From Verif Require Import Common PoolModel PoolSpec.

Definition region (b : block) : Z * Z := (b_ptr b, b_size b).

(** ** The search *)
Definition fits (req : Z) (b : block) : Prop :=
  b_used b = false /\ (b_size b = req \/ req < b_size b < 2 * req).

Lemma search_found : forall req l i found ff found' ff', pool_search req l i found ff = (found', ff') ->
  found' = found \/ exists k b, nth_error l k = Some b /\ fits req b /\ found' = Some ((i + k)%nat, b_size b).
Proof.
  intros req. induction l as [|b l IH]; intros i found ff found' ff' E; cbn [pool_search] in E.
  - injection E as <- <-. auto.
  - assert (Hn : forall fo f0, pool_search req l (S i) fo f0 = (found', ff') ->
        (fo = found \/ (fits req b /\ fo = Some (i, b_size b))) ->
        found' = found \/ exists k b0, nth_error (b :: l) k = Some b0 /\ fits req b0 /\ found' = Some ((i + k)%nat, b_size b0)).
    { intros fo f0 E1 Hfo. destruct (IH _ _ _ _ _ E1) as [->|(k & b0 & H1 & H2 & H3)].
      - destruct Hfo as [->|[Hf ->]]; auto. right. exists 0%nat, b. rewrite Nat.add_0_r. auto.
      - right. exists (S k), b0. replace (i + S k)%nat with (S i + k)%nat by lia. auto. }
    destruct (b_used b) eqn:Eu; [eauto|].
    destruct (b_size b =? req) eqn:E1.
    + injection E as <- <-. right. exists 0%nat, b. rewrite Nat.add_0_r. split; auto. split; auto. split; auto. left. lia.
    + destruct ((req <? b_size b) && (b_size b <? 2 * req)) eqn:E2; [|eauto].
      eapply Hn; [exact E|]. assert (fits req b) by (split; auto; right; lia).
      destruct found as [[j s]|]; auto. destruct (b_size b <? s); auto.
Qed.

(** The best candidate so far is one that fits (or none). *)
Definition good (req : Z) (f : option (nat * Z)) : Prop :=
  match f with None => True | Some (_, s) => req <= s end.
Definition beats (f : option (nat * Z)) (s : Z) : Prop := match f with None => False | Some (_, s') => s' <= s end.

Lemma search_best : forall req l i found ff found' ff', pool_search req l i found ff = (found', ff') -> good req found ->
  (forall j s, found = Some (j, s) -> beats found' s) /\
  (forall k b, nth_error l k = Some b -> fits req b -> beats found' (b_size b)).
Proof.
  intros req. induction l as [|b l IH]; intros i found ff found' ff' E Hg; cbn [pool_search] in E.
  - injection E as <- <-. split; [intros j s ->; cbn; lia|]. intros [|k] b H; discriminate.
  - assert (Hskip : b_used b = true \/ ~ fits req b -> forall f0, pool_search req l (S i) found f0 = (found', ff') ->
       (forall j s, found = Some (j, s) -> beats found' s) /\
       (forall k b0, nth_error (b :: l) k = Some b0 -> fits req b0 -> beats found' (b_size b0))).
    { intros Hn f0 E1. destruct (IH _ _ _ _ _ E1 Hg) as [I1 I2]. split; auto. intros [|k] b0 Hk Hf; eauto.
      cbn in Hk. injection Hk as <-. destruct Hn as [Hn|Hn]; [destruct Hf; congruence|contradiction]. }
    destruct (b_used b) eqn:Eu; [eauto|].
    destruct (b_size b =? req) eqn:E1.
    + injection E as <- <-. split; [intros j s ->; cbn in *; lia|]. intros k b0 _ [_ Hs]. cbn. lia.
    + destruct ((req <? b_size b) && (b_size b <? 2 * req)) eqn:E2.
      * set (fo := match found with None => Some (i, b_size b) | Some (_, s) => if b_size b <? s then Some (i, b_size b) else found end) in *.
        assert (Gf : good req fo).
        { unfold fo. destruct found as [[j s]|]; [|cbn; lia]. destruct (b_size b <? s); cbn in *; lia. }
        destruct (IH _ _ _ _ _ E Gf) as [I1 I2]. 
        assert (Hb : beats found' (b_size b) /\ forall j s, found = Some (j, s) -> beats found' s).
        { unfold fo in I1. destruct found as [[j s]|].
          - destruct (b_size b <? s) eqn:E3; specialize (I1 _ _ eq_refl); destruct found' as [[j' s']|]; cbn in *; try tauto.
            + split; [lia|]. intros j0 s0 E0. injection E0 as <- <-. lia.
            + split; [lia|]. intros j0 s0 E0. injection E0 as <- <-. lia.
          - specialize (I1 _ _ eq_refl). split; auto. intros j s E0. discriminate. }
        destruct Hb as [B1 B2]. split; auto. intros [|k] b0 Hk Hf; eauto. cbn in Hk. injection Hk as <-. auto.
      * eapply Hskip; [|exact E]. right. intros [_ Hf]. lia.
Qed.

Lemma search_first : forall req l i found ff found' ff', pool_search req l i found ff = (found', ff') ->
  match ff with
  | Some x => ff' = Some x
  | None => match ff' with
            | Some x => exists k, x = (i + k)%nat /\ (k < length l)%nat /\ forall k' b, (k' < k)%nat -> nth_error l k' = Some b -> b_used b = true
            | None => found' = found /\ forall k b, nth_error l k = Some b -> b_used b = true
            end
  end.
Proof.
  intros req. induction l as [|b l IH]; intros i found ff found' ff' E; cbn [pool_search] in E.
  - injection E as <- <-. destruct ff as [x|]; auto. split; auto. intros [|k] b H; discriminate.
  - destruct (b_used b) eqn:Eu.
    + specialize (IH _ _ _ _ _ E). destruct ff as [x|]; auto. destruct ff' as [x|].
      * destruct IH as (k & -> & Hk & Hb). exists (S k). split; [lia|]. split; [cbn; lia|].
        intros [|k'] b0 Hk' H0; cbn in H0; [congruence|]. apply (Hb k' b0); auto. lia.
      * destruct IH as [I1 I2]. split; auto. intros [|k] b0 H0; cbn in H0; [congruence|eauto].
    + assert (X : ff' = match ff with None => Some i | Some _ => ff end).
      { destruct (b_size b =? req); [injection E as <- <-; auto|].
        destruct ((req <? b_size b) && (b_size b <? 2 * req)); specialize (IH _ _ _ _ _ E); destruct ff; cbn in IH; auto. }
      rewrite X. destruct ff as [x|]; auto. exists 0%nat. rewrite Nat.add_0_r. split; auto. split; [cbn; lia|]. intros k' b0 Hk; lia.
Qed.

(** ** Blocks *)
Lemma set_used_map : forall {A} (f : block -> A) l i v, (forall b, f (mkBlock (b_ptr b) (b_size b) v) = f b) ->
  map f (set_used l i v) = map f l.
Proof.
  intros A f. induction l as [|b l IH]; intros [|i] v H; cbn [set_used map]; auto; [rewrite H|rewrite IH]; auto.
Qed.
Lemma set_used_length : forall l i v, length (set_used l i v) = length l.
Proof. induction l as [|b l IH]; intros [|i] v; cbn; auto. Qed.

Lemma set_used_nth : forall l i v k, nth_error (set_used l i v) k =
  match nth_error l k with
  | Some b => Some (if Nat.eqb k i then mkBlock (b_ptr b) (b_size b) v else b)
  | None => None
  end.
Proof.
  induction l as [|b l IH]; intros i v k; cbn [set_used].
  - destruct i, k; reflexivity.
  - destruct i as [|i], k as [|k]; cbn [nth_error Nat.eqb]; auto. destruct (nth_error l k); auto.
Qed.

Definition disj (l : list (Z * Z)) : Prop := ForallOrdPairs disjoint l.

Lemma disjoint_sym : forall x y, disjoint x y -> disjoint y x.
Proof. unfold disjoint. intros. lia. Qed.

Lemma disj_app : forall l x, disj l -> Forall (fun y => disjoint y x) l -> disj (l ++ [x]).
Proof.
  induction l as [|a l IH]; intros x Hd Hx; cbn [app].
  - constructor; constructor.
  - inversion Hd; subst. inversion Hx; subst. constructor; [|apply IH; auto].
    apply Forall_app. split; auto.
Qed.
Lemma disj_filter : forall f l, disj l -> disj (filter f l).
Proof.
  intros f. induction l as [|a l IH]; intros Hd; cbn [filter]; auto. inversion Hd; subst.
  destruct (f a); [|apply IH; auto]. constructor; [|apply IH; auto].
  apply Forall_forall. intros y Hy. apply filter_In in Hy. apply (proj1 (Forall_forall _ _) H1). tauto.
Qed.

Lemma disj_other : forall l, disj (map region l) -> forall b c, In b l -> In c l -> b_ptr b <> b_ptr c -> disjoint (region b) (region c).
Proof.
  intros l Hd b c Hb Hc Hne. destruct (ForallOrdPairs_In Hd (region b) (region c)) as [E|[H|H]];
    try (apply in_map; auto); auto.
  - unfold region in E. injection E as E _. contradiction.
  - apply disjoint_sym. auto.
Qed.

Lemma disj_nodup : forall l, disj (map region l) -> Forall (fun b => 128 <= b_size b) l -> NoDup (map b_ptr l).
Proof.
  induction l as [|b l IH]; intros Hd Hs; cbn [map] in *; constructor.
  - inversion Hd as [|? ? H1 H2]; subst. inversion Hs as [|? ? S1 S2]; subst. intros Hi.
    apply in_map_iff in Hi. destruct Hi as (c & E & Hc).
    assert (H : disjoint (region b) (region c)) by (apply (proj1 (Forall_forall _ _) H1); apply in_map; auto).
    assert (128 <= b_size c) by (apply (proj1 (Forall_forall _ _) S2); auto).
    unfold disjoint, region in H. cbn in H. lia.
  - inversion Hd; subst. inversion Hs; subst. apply IH; auto.
Qed.

Lemma nodup_nth : forall l i j b c, NoDup (map b_ptr l) -> nth_error l i = Some b -> nth_error l j = Some c ->
  b_ptr b = b_ptr c -> i = j.
Proof.
  intros l i j b c Hn Hi Hj E.
  apply (proj1 (NoDup_nth_error (map b_ptr l)) Hn).
  - apply nth_error_Some. rewrite nth_error_map, Hi. discriminate.
  - rewrite !nth_error_map, Hi, Hj. cbn. congruence.
Qed.

Lemma find_back_spec : forall ptr l, 
  match find_back ptr (rev l) (length l) with
  | None => ~ In ptr (map b_ptr l)
  | Some (i, u) => exists b, nth_error l i = Some b /\ b_ptr b = ptr /\ b_used b = u
  end.
Proof.
  intros ptr. apply (rev_ind (fun l => _)).
  - cbn. auto.
  - intros b l IH. rewrite rev_app_distr, app_length. cbn [rev app find_back length].
    replace (length l + 1)%nat with (S (length l)) by lia. cbn [Nat.pred].
    destruct (b_ptr b =? ptr) eqn:E.
    + exists b. rewrite nth_error_app2 by lia. rewrite Nat.sub_diag. split; auto. split; auto. lia.
    + destruct (find_back ptr (rev l) (length l)) as [[i u]|].
      * destruct IH as (c & H1 & H2 & H3). exists c. split; auto. rewrite nth_error_app1; auto.
        apply nth_error_Some. rewrite H1. discriminate.
      * rewrite map_app. intros H. apply in_app_or in H. destruct H as [H|[H|[]]]; auto. lia.
Qed.

(** ** The invariant *)
Record pool_inv (p : pool) (v : view) : Prop := {
  i_held : v_held v = map region (pl_blocks p);
  i_disj : disj (v_held v);
  i_size : Forall (fun b => 128 <= b_size b) (pl_blocks p);
  i_used : forall b, In b (pl_blocks p) -> b_used b = used_region v (region b);
  i_live : forall l, In l (v_live v) -> exists b, In b (pl_blocks p) /\ b_ptr b = fst l /\ snd l <= b_size b;
  i_nodup : NoDup (map fst (v_live v));
  i_hint : (pl_hint p <= length (pl_blocks p))%nat;
  i_before : forall k b, (k < pl_hint p)%nat -> nth_error (pl_blocks p) k = Some b -> b_used b = true;
  i_total : pl_total p = zsum (map snd (v_held v))
}.

Lemma inv_new : pool_inv pool_new view_new.
Proof.
  constructor; cbn; auto; try constructor; try tauto; try lia. 
Qed.

Lemma used_region_In : forall v x, used_region v x = true <-> In (fst x) (map fst (v_live v)).
Proof.
  intros v x. unfold used_region. rewrite existsb_exists, in_map_iff. split.
  - intros (l & Hl & E). exists l. split; auto. lia.
  - intros (l & E & Hl). exists l. split; auto. lia.
Qed.

Lemma max_if : forall req, (if req <? min_alloc_size then min_alloc_size else req) = Z.max req 128.
Proof. intros req. unfold min_alloc_size. destruct (req <? 128) eqn:E; lia. Qed.

Lemma filter_existsb_false : forall {A} (f : A -> bool) l, existsb f l = false -> filter f l = [].
Proof.
  intros A f. induction l as [|a l IH]; cbn; auto. intros H. apply orb_false_iff in H. destruct H as [-> H]. auto.
Qed.

Lemma zsum_filter_split : forall (f : block -> bool) l, zsum (map b_size (filter f l)) =
  zsum (map b_size l) - zsum (map b_size (filter (fun b => negb (f b)) l)).
Proof.
  intros f. induction l as [|b l IH]; cbn [filter map]; [reflexivity|].
  destruct (f b); cbn [negb map]; unfold zsum in *; cbn [fold_right] in *; lia.
Qed.
