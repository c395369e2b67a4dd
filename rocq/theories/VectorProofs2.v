(** Sites, vectors and halo copies in terms of the field held. *)
From Verif Require Import Common LayoutProofs1 VectorModel VectorSpec VectorProofs1.
Open Scope Z_scope.

Section Fields.
Context {V : Type}.
Variables (vs E sites : Z).
Hypothesis Hroom : room_for vs E sites.
Implicit Types (m : storage V) (f : Z -> Z -> V).

Let Hvs : 0 < vs := proj1 Hroom.

Lemma in_components e : In e (zrange 0 (Z.to_nat E)) <-> 0 <= e < E.
Proof. rewrite zrange_In. pose proof (proj1 (proj2 Hroom)) as H. lia. Qed.

Lemma in_lanes k : In k (zrange 0 (Z.to_nat vs)) <-> 0 <= k < vs.
Proof. rewrite zrange_In. lia. Qed.

Lemma site_places_addr i : site_places vs E i = map (fun e => addr vs E i e) (zrange 0 (Z.to_nat E)).
Proof. reflexivity. Qed.

Lemma holds_load m f : holds_field vs E sites m f <->
  forall i e, 0 <= i < sites -> 0 <= e < E -> load m (addr vs E i e) = Some (f i e).
Proof.
  unfold holds_field, get_element. split; intros H.
  - intros i e Hi He. specialize (H i Hi). rewrite site_places_addr in H.
    exact (proj1 (load_all_iff m (addr vs E i) (f i) _) H e (proj2 (in_components e) He)).
  - intros i Hi. rewrite site_places_addr. apply (proj2 (load_all_iff m (addr vs E i) (f i) _)).
    intros e He. apply H; [exact Hi|]. apply in_components. exact He.
Qed.

Lemma vector_addr i k e : 0 <= k < vs -> addr vs E (i * vs + k) e = i * E * vs + e * vs + k.
Proof.
  intros Hk. rewrite addr_vector.
  replace ((i * vs + k) / vs) with i by (rewrite Z.add_comm, Z.div_add by lia; rewrite Z.div_small; lia).
  replace ((i * vs + k) mod vs) with k by (rewrite Z.add_comm, Z.mod_add by lia; rewrite Z.mod_small; lia). ring.
Qed.

Lemma vector_site i k : 0 <= i < sites / vs -> 0 <= k < vs -> 0 <= i * vs + k < sites.
Proof.
  pose proof Hroom as [_ [HE [Hs Hm]]]. intros Hi Hk. assert (C : sites = vs * (sites / vs)) by (apply Z.div_exact; lia).
  split; [nia|]. assert (i * vs <= (sites / vs - 1) * vs) by (apply Z.mul_le_mono_nonneg_r; lia). nia.
Qed.

Lemma site_vector i : 0 <= i < sites -> 0 <= i / vs < sites / vs.
Proof.
  pose proof Hroom as [_ [HE [Hs Hm]]]. intros Hi. assert (C : sites = vs * (sites / vs)) by (apply Z.div_exact; lia).
  split; [apply Z.div_pos; lia|apply Z.div_lt_upper_bound; lia].
Qed.

Lemma set_element_holds m f i v : holds_field vs E sites m f -> 0 <= i < sites ->
  exists m', set_element vs E m i (map v (zrange 0 (Z.to_nat E))) = Some m' /\ holds_field vs E sites m' (with_site f i v).
Proof.
  intros H Hi. pose proof (proj1 (holds_load m f) H) as L. unfold set_element. rewrite site_places_addr, combine_map.
  destruct (store_all_map (addr vs E i) v (zrange 0 (Z.to_nat E)) m) as [m' [A [B C]]].
  - intros e He. apply in_components in He. rewrite (L i e Hi He). discriminate.
  - apply NoDup_map_inj; [|apply zrange_NoDup]. intros x y Hx Hy Heq. apply in_components in Hx. apply in_components in Hy.
    destruct (addr_inj vs E i x i y Hvs Hx Hy Heq). assumption.
  - exists m'. split; [exact A|]. apply (proj2 (holds_load m' _)). intros j e Hj He. unfold with_site. destruct (j =? i) eqn:Hji.
    + apply Z.eqb_eq in Hji. subst j. apply B. apply in_components. exact He.
    + rewrite C; [apply L; assumption|]. intros Hin. apply in_map_iff in Hin. destruct Hin as [x [Hx Hin]].
      apply in_components in Hin. destruct (addr_inj vs E i x j e Hvs Hin He Hx). lia.
Qed.

Lemma load_rows_iff {X Y : Type} m (g : X -> Y -> Z) (h : X -> Y -> V) (l : list X) (ys : list Y) :
  (forall x y, In x l -> In y ys -> load m (g x y) = Some (h x y)) ->
  load_rows m (map (fun x => map (g x) ys) l) = Some (map (fun x => map (h x) ys) l).
Proof.
  induction l as [|x l IH]; intros H; [reflexivity|]. cbn [map load_rows].
  rewrite (proj2 (load_all_iff m (g x) (h x) ys)) by (intros y Hy; apply H; [left; reflexivity|exact Hy]).
  rewrite IH by (intros a b Ha Hb; apply H; [right; exact Ha|exact Hb]). reflexivity.
Qed.

Lemma get_vector_holds m f i : holds_field vs E sites m f -> 0 <= i < sites / vs ->
  get_vector vs E m i = Some (rows vs E (fun k e => f (i * vs + k) e)).
Proof.
  intros H Hi. pose proof (proj1 (holds_load m f) H) as L. unfold get_vector, vector_places, rows.
  apply (load_rows_iff m (fun e k => i * E * vs + e * vs + k) (fun e k => f (i * vs + k) e)).
  intros e k He Hk. apply in_components in He. apply in_lanes in Hk. rewrite <- (vector_addr i k e Hk).
  apply L; [apply vector_site; assumption|exact He].
Qed.

(** All places of a vector. *)
Definition cells : list (Z * Z) := flat_map (fun e => map (fun k => (e, k)) (zrange 0 (Z.to_nat vs))) (zrange 0 (Z.to_nat E)).

Lemma in_cells e k : In (e, k) cells <-> 0 <= e < E /\ 0 <= k < vs.
Proof.
  unfold cells. rewrite in_flat_map. split.
  - intros [x [Hx Hin]]. apply in_map_iff in Hin. destruct Hin as [y [Hy Hin]]. injection Hy as -> ->.
    rewrite in_components in Hx. rewrite in_lanes in Hin. tauto.
  - intros [He Hk]. exists e. split; [apply in_components; exact He|]. apply in_map_iff. exists k. split; [reflexivity|]. apply in_lanes. exact Hk.
Qed.

Lemma cells_NoDup : NoDup cells.
Proof.
  unfold cells. generalize (zrange_NoDup (Z.to_nat E) 0). generalize (zrange 0 (Z.to_nat E)) as l.
  induction l as [|e l IH]; intros Hnd; [constructor|]. apply NoDup_cons_iff in Hnd. destruct Hnd as [He Hnd]. cbn [flat_map].
  apply NoDup_app_intro; [apply NoDup_map_inj; [|apply zrange_NoDup]; intros x y _ _ Hxy; injection Hxy as ->; reflexivity|apply IH; exact Hnd|].
  intros [a b] Ha Hb. apply in_map_iff in Ha. destruct Ha as [k [Hk _]]. injection Hk as -> ->.
  apply in_flat_map in Hb. destruct Hb as [x [Hx Hb]]. apply in_map_iff in Hb. destruct Hb as [y [Hy _]]. injection Hy as -> ->. contradiction.
Qed.

Definition cell_place (i : Z) (c : Z * Z) : Z := i * E * vs + fst c * vs + snd c.

Lemma cell_place_inj i c i' c' : In c cells -> In c' cells -> cell_place i c = cell_place i' c' -> i = i' /\ c = c'.
Proof.
  destruct c as [e k], c' as [e' k']. intros H H' Heq. apply in_cells in H. apply in_cells in H'. unfold cell_place in Heq. cbn [fst snd] in Heq.
  destruct (place_inj vs E i e k i' e' k') as [A [B C]]; try tauto.
  - rewrite <- !Z.add_assoc in Heq. rewrite <- !Z.mul_assoc in Heq. exact Heq.
  - subst. auto.
Qed.

Lemma cell_places_NoDup i : NoDup (map (cell_place i) cells).
Proof. apply NoDup_map_inj; [|apply cells_NoDup]. intros x y Hx Hy H. apply (cell_place_inj i x i y Hx Hy H). Qed.

Lemma addr_cell i e : 0 <= e < E -> addr vs E i e = cell_place (i / vs) (e, i mod vs) /\ In (e, i mod vs) cells.
Proof.
  intros He. split; [|apply in_cells; split; [exact He|apply mod_range; exact Hvs]].
  unfold addr, cell_place. cbn [fst snd]. ring.
Qed.

Lemma cell_load m f i c : holds_field vs E sites m f -> 0 <= i < sites / vs -> In c cells ->
  load m (cell_place i c) = Some (f (i * vs + snd c) (fst c)).
Proof.
  destruct c as [e k]. intros H Hi Hc. apply in_cells in Hc. destruct Hc as [He Hk]. unfold cell_place. cbn [fst snd].
  rewrite <- (vector_addr i k e Hk). apply (proj1 (holds_load m f) H); [apply vector_site; assumption|exact He].
Qed.

(** Writing all cells of vector [i], however the writes are ordered. *)
Lemma vector_written m m' f i v : holds_field vs E sites m f ->
  (forall c, In c cells -> load m' (cell_place i c) = Some (v (snd c) (fst c))) ->
  (forall q, ~ In q (map (cell_place i) cells) -> load m' q = load m q) ->
  holds_field vs E sites m' (with_vector vs f i v).
Proof.
  intros H B C. apply (proj2 (holds_load m' _)). intros j e Hj He. destruct (addr_cell j e He) as [A1 A2]. unfold with_vector.
  destruct (j / vs =? i) eqn:Hji.
  - apply Z.eqb_eq in Hji. rewrite A1, Hji. rewrite (B _ A2). reflexivity.
  - rewrite C; [apply (proj1 (holds_load m f) H); assumption|]. rewrite A1. intros Hin. apply in_map_iff in Hin. destruct Hin as [c [Hc Hin]].
    destruct (cell_place_inj i c (j / vs) (e, j mod vs) Hin A2 Hc). lia.
Qed.

Lemma store_rows_flat {X : Type} (g : X -> Z -> Z) (v : X -> Z -> V) (ks : list Z) (l : list X) : forall m,
  store_rows m (map (fun x => (map (g x) ks, map (v x) ks)) l)
  = store_all m (map (fun c => (g (fst c) (snd c), v (fst c) (snd c))) (flat_map (fun x => map (fun k => (x, k)) ks) l)).
Proof.
  induction l as [|x l IH]; intros m; [reflexivity|]. cbn [map flat_map store_rows]. rewrite map_app, store_all_app, map_map.
  cbn [fst snd]. rewrite combine_map. destruct (store_all m _); [apply IH|reflexivity].
Qed.

Lemma set_vector_holds m f i v : holds_field vs E sites m f -> 0 <= i < sites / vs ->
  exists m', set_vector vs E m i (rows vs E v) = Some m' /\ holds_field vs E sites m' (with_vector vs f i v).
Proof.
  intros H Hi. unfold set_vector, vector_places, rows. rewrite combine_map.
  rewrite (store_rows_flat (fun e k => i * E * vs + e * vs + k) (fun e k => v k e)). fold cells.
  destruct (store_all_map (cell_place i) (fun c => v (snd c) (fst c)) cells m) as [m' [A [B C]]].
  - intros c Hc. rewrite (cell_load m f i c H Hi Hc). discriminate.
  - apply cell_places_NoDup.
  - exists m'. split; [exact A|]. apply (vector_written m m' f i v H B C).
Qed.

(** ** Halo copies *)
Definition permuted (neg : V -> V) (perm : Z -> Z) f (s : Z) : Z -> Z -> V := fun k e => neg (f (s * vs + perm k) e).

Lemma copy_permuted_fold neg perm m t s :
  copy_permuted vs E neg perm m t s
  = fold_left (copy_step neg (fun c => cell_place s (fst c, perm (snd c))) (cell_place t)) cells (Some m).
Proof.
  unfold copy_permuted, cells. generalize (Some m) as a. generalize (zrange 0 (Z.to_nat E)) as l.
  induction l as [|e l IH]; intros a; [reflexivity|]. cbn [flat_map]. rewrite !fold_left_app.
  assert (X : forall ks b,
    fold_left (fun acc q => match acc with
                          | Some m => match load m (s * (E * vs) + fst q + perm (snd q)) with
                                      | Some v => store m (t * (E * vs) + fst q + snd q) (neg v)
                                      | None => None
                                      end
                          | None => None
                          end) (map (fun i => (e * vs, i)) ks) b
    = fold_left (copy_step neg (fun c => cell_place s (fst c, perm (snd c))) (cell_place t)) (map (fun k => (e, k)) ks) b).
  { induction ks as [|k ks IHk]; intros b; [reflexivity|]. cbn [map fold_left]. rewrite IHk. f_equal. unfold copy_step, cell_place.
    destruct b as [b|]; [|reflexivity]. cbn [fst snd]. rewrite !Z.mul_assoc. reflexivity. }
  rewrite X. apply IH.
Qed.

Lemma copy_permuted_holds neg perm m f t s : holds_field vs E sites m f -> is_permutation vs perm ->
  0 <= t < sites / vs -> 0 <= s < sites / vs -> s <> t ->
  exists m', copy_permuted vs E neg perm m t s = Some m' /\ holds_field vs E sites m' (with_vector vs f t (permuted neg perm f s)).
Proof.
  intros H Hp Ht Hs Hst. rewrite copy_permuted_fold.
  assert (Hc' : forall c, In c cells -> In (fst c, perm (snd c)) cells).
  { intros [e k] Hc. apply in_cells in Hc. apply in_cells. cbn [fst snd]. split; [tauto|apply Hp; tauto]. }
  destruct (copy_fold neg (fun c => cell_place s (fst c, perm (snd c))) (cell_place t) (fun c => f (s * vs + perm (snd c)) (fst c)) cells m)
    as [m' [A [B C]]].
  - intros c Hc. exact (cell_load m f s _ H Hs (Hc' c Hc)).
  - intros c Hc. rewrite (cell_load m f t c H Ht Hc). discriminate.
  - intros c d Hc Hd Heq. destruct (cell_place_inj s _ t d (Hc' c Hc) Hd Heq). contradiction.
  - apply cell_places_NoDup.
  - exists m'. split; [exact A|]. apply (vector_written m m' f t _ H B C).
Qed.

Lemma holds_ext m f g : (forall i e, 0 <= i < sites -> 0 <= e < E -> f i e = g i e) -> holds_field vs E sites m f -> holds_field vs E sites m g.
Proof.
  intros Hfg H. apply (proj2 (holds_load m g)). intros i e Hi He. rewrite <- Hfg by assumption. apply (proj1 (holds_load m f) H); assumption.
Qed.

Lemma copy_halo_holds neg perm offset : is_permutation vs perm -> forall l m f start,
  holds_field vs E sites m f ->
  (forall s, In s l -> 0 <= s < start + offset) ->
  0 <= start + offset -> start + offset + Z.of_nat (length l) <= sites / vs ->
  exists m', copy_halo vs E neg perm offset m start l = Some m' /\
             holds_field vs E sites m' (with_halo vs neg perm (start + offset) l f).
Proof.
  intros Hp l. induction l as [|s l IH]; intros m f start H Hsrc H0 Hroom'.
  - exists m. split; [reflexivity|]. apply (holds_ext m f); [|exact H]. intros i e Hi He. unfold with_halo.
    destruct (Z.to_nat (i / vs - (start + offset))); reflexivity.
  - cbn [length] in Hroom'. cbn [copy_halo].
    assert (Hs : 0 <= s < start + offset) by (apply Hsrc; left; reflexivity).
    destruct (copy_permuted_holds neg perm m f (start + offset) s H Hp) as [m1 [A B]]; [lia|lia|lia|]. rewrite A.
    destruct (IH m1 _ (start + 1) B) as [m' [C D]]; [intros x Hx; specialize (Hsrc x (or_intror Hx)); lia|lia|lia|].
    exists m'. split; [exact C|]. eapply holds_ext; [|exact D]. intros j e Hj He.
    unfold with_halo, with_vector, permuted.
    destruct (Z.lt_trichotomy (j / vs) (start + offset)) as [Hlt|[Heq|Hgt]].
    + replace (start + 1 + offset <=? j / vs) with false by (symmetry; apply Z.leb_gt; lia).
      replace (start + offset <=? j / vs) with false by (symmetry; apply Z.leb_gt; lia).
      replace (j / vs =? start + offset) with false by (symmetry; apply Z.eqb_neq; lia).
      destruct (nth_error _ _); destruct (nth_error _ _); reflexivity.
    + replace (start + 1 + offset <=? j / vs) with false by (symmetry; apply Z.leb_gt; lia).
      replace (start + offset <=? j / vs) with true by (symmetry; apply Z.leb_le; lia).
      replace (j / vs =? start + offset) with true by (symmetry; apply Z.eqb_eq; lia).
      replace (Z.to_nat (j / vs - (start + offset))) with O by lia. cbn [nth_error].
      destruct (nth_error _ _); reflexivity.
    + replace (start + 1 + offset <=? j / vs) with true by (symmetry; apply Z.leb_le; lia).
      replace (start + offset <=? j / vs) with true by (symmetry; apply Z.leb_le; lia).
      replace (j / vs =? start + offset) with false by (symmetry; apply Z.eqb_neq; lia).
      replace (Z.to_nat (j / vs - (start + offset))) with (S (Z.to_nat (j / vs - (start + 1 + offset)))) by lia. cbn [nth_error].
      destruct (nth_error l _) as [x|] eqn:Hx; [|reflexivity].
      assert (Hx' : 0 <= x < start + offset) by (apply Hsrc; right; eapply nth_error_In; exact Hx).
      replace ((x * vs + perm (j mod vs)) / vs) with x.
      * replace (x =? start + offset) with false by (symmetry; apply Z.eqb_neq; lia). reflexivity.
      * pose proof (Hp (j mod vs) (mod_range j vs Hvs)). rewrite Z.add_comm, Z.div_add by lia. rewrite Z.div_small; lia.
Qed.

(** ** Lists of sites *)
Lemma gather_holds m f l : holds_field vs E sites m f -> Forall (fun i => 0 <= i < sites) l ->
  gather_elements vs E m l = Some (map (fun i => map (f i) (zrange 0 (Z.to_nat E))) l).
Proof.
  intros H. induction l as [|i l IH]; intros HF; [reflexivity|]. inversion HF as [|? ? Hi HF']. subst. cbn [gather_elements map].
  rewrite (H i Hi), IH by exact HF'. reflexivity.
Qed.

Lemma place_holds : forall l (b : list (Z -> V)) m f, holds_field vs E sites m f -> Forall (fun i => 0 <= i < sites) l -> length b = length l ->
  exists m', place_elements vs E m (map (fun v => map v (zrange 0 (Z.to_nat E))) b) l = Some m' /\
             holds_field vs E sites m' (fold_left (fun g iv => with_site g (fst iv) (snd iv)) (combine l b) f).
Proof.
  induction l as [|i l IH]; intros [|v b] m f H HF HL; try discriminate.
  - exists m. split; [reflexivity|exact H].
  - inversion HF as [|? ? Hi HF']. subst. cbn [map place_elements combine fold_left fst snd].
    destruct (set_element_holds m f i v H Hi) as [m1 [A B]]. rewrite A.
    destruct (IH b m1 _ B HF') as [m' [C D]]; [injection HL as HL; exact HL|]. exists m'. split; [exact C|exact D].
Qed.

(** ** Whole vectors in memory order *)
Lemma raw_cells i : map (cell_place i) cells = zrange (i * vs * E) (Z.to_nat (vs * E)).
Proof.
  unfold cells. pose proof Hroom as [Hv [HE _]].
  assert (X : forall n a, 0 <= a -> map (cell_place i) (flat_map (fun e => map (fun k => (e, k)) (zrange 0 (Z.to_nat vs))) (zrange a n))
              = zrange (i * vs * E + a * vs) (Z.to_nat vs * n)).
  { induction n as [|n IH]; intros a Ha.
    - rewrite Nat.mul_0_r. reflexivity.
    - cbn [zrange flat_map]. rewrite map_app, IH by lia. replace (Z.to_nat vs * S n)%nat with (Z.to_nat vs + Z.to_nat vs * n)%nat by lia.
      rewrite zrange_app. f_equal.
      + rewrite map_map. unfold cell_place. cbn [fst snd].
        rewrite <- (map_ext (fun k => (i * vs * E + a * vs) + k)) by (intros k; ring).
        rewrite zrange_map_add. f_equal. lia.
      + f_equal. rewrite Z2Nat.id by lia. ring. }
  rewrite X by lia. rewrite Z.mul_0_l, Z.add_0_r. f_equal. rewrite Z2Nat.inj_mul by lia. reflexivity.
Qed.

Lemma raw_holds m f i : holds_field vs E sites m f -> 0 <= i < sites / vs ->
  raw_vector vs E m (i * vs) = Some (map (fun c => f (i * vs + snd c) (fst c)) cells).
Proof.
  intros H Hi. unfold raw_vector. rewrite <- raw_cells. apply (proj2 (load_all_iff _ _ _ _)). intros c Hc. apply (cell_load m f i c H Hi Hc).
Qed.

Lemma raw_place m f i v : holds_field vs E sites m f -> 0 <= i < sites / vs ->
  exists m', store_all m (combine (zrange (i * vs * E) (Z.to_nat (vs * E))) (map (fun c => v (snd c) (fst c)) cells)) = Some m' /\
             holds_field vs E sites m' (with_vector vs f i v).
Proof.
  intros H Hi. rewrite <- raw_cells, combine_map.
  destruct (store_all_map (cell_place i) (fun c => v (snd c) (fst c)) cells m) as [m' [A [B C]]].
  - intros c Hc. rewrite (cell_load m f i c H Hi Hc). discriminate.
  - apply cell_places_NoDup.
  - exists m'. split; [exact A|]. apply (vector_written m m' f i v H B C).
Qed.
End Fields.
