(** Proofs about the conjugate gradient solver. *)
From Coq Require Import List Bool Field_theory Field Lia Arith.
From Verif Require Import CgModel CgSpec.
Import ListNotations.

Section Vectors.
Context (K : scalar) (O : ordered_field K).
Notation T := (num K).
Notation "0" := (zero K).
Notation "1" := (one K).
Notation "x + y" := (plus K x y).
Notation "x - y" := (minus K x y).
Notation "x * y" := (times K x y).
Notation "x / y" := (over K x y).

Let FT := of_field K O.
Add Field scalar_field : FT.

Lemma is_zero_false x : is_zero K x = false <-> x <> 0.
Proof.
  pose proof (of_zero K O x) as H. destruct (is_zero K x); split; intros A.
  - discriminate.
  - destruct A. apply H. reflexivity.
  - intros E. apply H in E. discriminate.
  - reflexivity.
Qed.

Lemma eq_dec (x y : T) : x = y \/ x <> y.
Proof.
  destruct (is_zero K (x - y)) eqn:E.
  - apply (of_zero K O) in E. left. replace x with ((x - y) + y) by ring. rewrite E. ring.
  - right. intros ->. apply is_zero_false in E. apply E. ring.
Qed.

Lemma mul_zero x y : x * y = 0 -> x = 0 \/ y = 0.
Proof.
  intros H. destruct (eq_dec x 0) as [|N]; [left; assumption|right].
  replace y with ((x * y) / x) by (field; exact N). rewrite H. field. exact N.
Qed.

(** ** Sums of squares *)

Definition nonneg (x : T) : Prop := x = 0 \/ less K 0 x = true.

Lemma square_nonneg x : nonneg (x * x).
Proof.
  destruct (eq_dec x 0) as [->|N]; [left; ring|right].
  destruct (of_total K O x 0 N) as [H|H].
  - apply (of_plus K O _ _ (0 - x)) in H.
    replace (x + (0 - x)) with 0 in H by ring. replace (0 + (0 - x)) with (0 - x) in H by ring.
    replace (x * x) with ((0 - x) * (0 - x)) by ring. apply (of_times K O); exact H.
  - apply (of_times K O); exact H.
Qed.

Lemma nonneg_plus x y : nonneg x -> nonneg y -> nonneg (x + y).
Proof.
  intros [->|Hx] [->|Hy].
  - left. ring.
  - right. replace (0 + y) with y by ring. exact Hy.
  - right. replace (x + 0) with x by ring. exact Hx.
  - right. apply (of_trans K O _ y); [exact Hy|].
    apply (of_plus K O _ _ y) in Hx. replace (0 + y) with y in Hx by ring. exact Hx.
Qed.

Lemma nonneg_sum_zero x y : nonneg x -> nonneg y -> x + y = 0 -> x = 0 /\ y = 0.
Proof.
  intros [->|Hx] Hy E.
  - split; [reflexivity|]. rewrite <- E. ring.
  - exfalso. destruct Hy as [->|Hy].
    + replace (x + 0) with x in E by ring. rewrite E, (of_irr K O) in Hx. discriminate.
    + apply (of_plus K O _ _ y) in Hx. replace (0 + y) with y in Hx by ring.
      rewrite E in Hx. pose proof (of_trans K O _ _ _ Hx Hy) as H.
      rewrite (of_irr K O) in H. discriminate.
Qed.

Lemma dot_nonneg v : nonneg (dot K v v).
Proof.
  induction v as [|a v IH]; [left; reflexivity|]. cbn [dot].
  apply nonneg_plus; [apply square_nonneg|exact IH].
Qed.

Lemma dot_zero v : dot K v v = 0 -> v = zeros K (length v).
Proof.
  induction v as [|a v IH]; [reflexivity|]. cbn [dot]. intros E.
  apply nonneg_sum_zero in E; [|apply square_nonneg|apply dot_nonneg].
  destruct E as [E1 E2]. cbn. f_equal; [|apply IH, E2].
  apply mul_zero in E1. destruct E1; assumption.
Qed.

Lemma squarenorm_dot v : squarenorm K v = dot K v v.
Proof.
  unfold squarenorm.
  assert (H : forall s, fold_left (fun s x => s + x * x) v s = s + dot K v v).
  { induction v as [|a v IH]; intros s; cbn; [ring|]. rewrite IH. ring. }
  rewrite H. ring.
Qed.

(** ** Linear algebra *)

Lemma vadd_vec m u v : vec K m u -> vec K m v -> vec K m (vadd K u v).
Proof.
  unfold vec. revert m v. induction u as [|a u IH]; intros m [|b v] A B; cbn in *; auto.
  destruct m as [|m]; [discriminate|]. f_equal. apply IH; congruence.
Qed.

Lemma vsub_vec m u v : vec K m u -> vec K m v -> vec K m (vsub K u v).
Proof.
  unfold vec. revert m v. induction u as [|a u IH]; intros m [|b v] A B; cbn in *; auto.
  destruct m as [|m]; [discriminate|]. f_equal. apply IH; congruence.
Qed.

Lemma scale_vec m c u : vec K m u -> vec K m (scale K c u).
Proof. unfold vec, scale. rewrite map_length. auto. Qed.

Lemma zeros_vec m : vec K m (zeros K m).
Proof. apply repeat_length. Qed.

Lemma dot_sym u v : dot K u v = dot K v u.
Proof.
  revert v. induction u as [|a u IH]; intros [|b v]; cbn; auto. rewrite IH. ring.
Qed.

Lemma dot_add m u v w : vec K m u -> vec K m v -> vec K m w ->
  dot K (vadd K u v) w = dot K u w + dot K v w.
Proof.
  unfold vec. revert m v w.
  induction u as [|a u IH]; intros m [|b v] [|c w] A B C; cbn in *;
    try (subst; discriminate); [ring|].
  destruct m as [|m]; [discriminate|]. change (zip (plus K) u v) with (vadd K u v). rewrite (IH m); try congruence. ring.
Qed.

Lemma dot_sub m u v w : vec K m u -> vec K m v -> vec K m w ->
  dot K (vsub K u v) w = dot K u w - dot K v w.
Proof.
  unfold vec. revert m v w.
  induction u as [|a u IH]; intros m [|b v] [|c w] A B C; cbn in *;
    try (subst; discriminate); [ring|].
  destruct m as [|m]; [discriminate|]. change (zip (minus K) u v) with (vsub K u v). rewrite (IH m); try congruence. ring.
Qed.

Lemma dot_scale c u w : dot K (scale K c u) w = c * dot K u w.
Proof.
  revert w. induction u as [|a u IH]; intros [|b w]; cbn; try ring. 
  change (map (times K c) u) with (scale K c u). rewrite IH. ring.
Qed.

Lemma dot_zeros m v : dot K (zeros K m) v = 0.
Proof.
  revert v. induction m as [|m IH]; intros [|b v]; cbn; auto.
  change (repeat 0 m) with (zeros K m). rewrite IH. ring.
Qed.

Lemma scale_zero m u : vec K m u -> scale K 0 u = zeros K m.
Proof.
  unfold vec. revert m. induction u as [|a u IH]; intros [|m] H; cbn in *; try congruence.
  f_equal; [ring|]. apply IH. congruence.
Qed.

Lemma zeros_add m u : vec K m u -> vadd K (zeros K m) u = u.
Proof.
  unfold vec. revert m. induction u as [|a u IH]; intros [|m] H; cbn in *; try congruence.
  f_equal; [ring|]. apply IH. congruence.
Qed.

Lemma sub_zeros m u v : vec K m u -> vec K m v -> vsub K u v = zeros K m -> u = v.
Proof.
  unfold vec. revert m v. induction u as [|a u IH]; intros [|m] [|b v] A B E; cbn in *;
    try congruence.
  injection E as E1 E2. f_equal; [|apply (IH m); first [exact E2|congruence]].
  replace a with ((a - b) + b) by ring. rewrite E1. ring.
Qed.

Lemma sub_self m u : vec K m u -> vsub K u u = zeros K m.
Proof.
  unfold vec. revert m. induction u as [|a u IH]; intros [|m] H; cbn in *; try congruence.
  f_equal; [ring|]. apply IH. congruence.
Qed.

(** b - (y + a) = (b - y) - a *)
Lemma sub_add m b y a : vec K m b -> vec K m y -> vec K m a ->
  vsub K b (vadd K y a) = vsub K (vsub K b y) a.
Proof.
  unfold vec. revert m y a.
  induction b as [|x b IH]; intros m [|y0 y] [|a0 a] A B C; cbn in *;
    try (subst; discriminate); [reflexivity|].
  destruct m as [|m]; [discriminate|]. f_equal; [ring|]. apply (IH m); congruence.
Qed.

(** r - (r - a) = a *)
Lemma sub_sub m r a : vec K m r -> vec K m a -> vsub K r (vsub K r a) = a.
Proof.
  unfold vec. revert m a.
  induction r as [|x r IH]; intros m [|a0 a] A B; cbn in *;
    try (subst; discriminate); [reflexivity|].
  destruct m as [|m]; [discriminate|]. f_equal; [ring|]. apply (IH m); congruence.
Qed.

(** (a + r) - a = r *)
Lemma add_sub m r a : vec K m r -> vec K m a -> vsub K (vadd K a r) a = r.
Proof.
  unfold vec. revert m a.
  induction r as [|x r IH]; intros m [|a0 a] A B; cbn in *;
    try (subst; discriminate); [reflexivity|].
  destruct m as [|m]; [discriminate|]. f_equal; [ring|]. apply (IH m); congruence.
Qed.

Lemma sub_scale_zero m u : vec K m u -> vsub K u (scale K 0 u) = u.
Proof.
  unfold vec. revert m. induction u as [|a u IH]; intros [|m] H; cbn in *; try congruence.
  f_equal; [ring|]. apply (IH m). congruence.
Qed.

(** ** At most m orthogonal vectors in m dimensions *)

(** A linear combination. *)
Fixpoint comb (m : nat) (cs : list T) (vs : list (list T)) : list T :=
  match cs, vs with
  | c :: cs', v :: vs' => vadd K (scale K c v) (comb m cs' vs')
  | _, _ => zeros K m
  end.

Lemma comb_vec m cs vs : Forall (vec K m) vs -> vec K m (comb m cs vs).
Proof.
  revert vs. induction cs as [|c cs IH]; intros [|v vs] H; cbn; try apply zeros_vec.
  inversion H; subst. apply vadd_vec; [apply scale_vec; assumption|apply IH; assumption].
Qed.

Lemma dot_comb m cs vs w : Forall (vec K m) vs -> vec K m w ->
  dot K (comb m cs vs) w = fold_right (plus K) 0 (zip (fun c v => c * dot K v w) cs vs).
Proof.
  revert vs. induction cs as [|c cs IH]; intros [|v vs] H W; cbn; try apply dot_zeros.
  inversion H; subst. rewrite (dot_add m), dot_scale, IH; auto.
  - apply scale_vec; assumption.
  - apply comb_vec; assumption.
Qed.

(** Components of the head of each vector. *)
Definition hd0 (v : list T) : T := hd 0 v.

(** Elimination: subtract from each vector the multiple of [w] that makes its
    head vanish, and drop the head. *)
Definition reduce (w v : list T) : list T :=
  tl (vsub K v (scale K (hd0 v / hd0 w) w)).

Lemma reduce_vec m w v : vec K (S m) w -> vec K (S m) v -> vec K m (reduce w v).
Proof.
  intros A B. unfold reduce.
  assert (E : vec K (S m) (vsub K v (scale K (hd0 v / hd0 w) w)))
    by (apply vsub_vec; [assumption|apply scale_vec; assumption]).
  unfold vec in *. destruct (vsub K v _); cbn in *; congruence.
Qed.

Lemma vec_ext m u v : vec K m u -> vec K m v ->
  (forall i, nth i u 0 = nth i v 0) -> u = v.
Proof.
  intros A B E. apply (nth_ext u v 0 0); [unfold vec in *; congruence|]. auto.
Qed.

Lemma nth_vadd i u v : length u = length v -> nth i (vadd K u v) 0 = nth i u 0 + nth i v 0.
Proof.
  revert i v. induction u as [|a u IH]; intros i [|b v] H; cbn in *; try discriminate.
  - destruct i; ring.
  - destruct i; [ring|]. apply IH. congruence.
Qed.

Lemma nth_vsub i u v : length u = length v -> nth i (vsub K u v) 0 = nth i u 0 - nth i v 0.
Proof.
  revert i v. induction u as [|a u IH]; intros i [|b v] H; cbn in *; try discriminate.
  - destruct i; ring.
  - destruct i; [ring|]. apply IH. congruence.
Qed.

Lemma nth_scale i c u : nth i (scale K c u) 0 = c * nth i u 0.
Proof.
  revert i. induction u as [|a u IH]; intros i; cbn.
  - destruct i; ring.
  - destruct i; [ring|]. apply IH.
Qed.

Lemma nth_zeros i m : nth i (zeros K m) 0 = 0.
Proof.
  revert i. induction m as [|m IH]; intros [|i]; cbn; auto.
Qed.

Definition lin (cs : list T) (vs : list (list T)) (i : nat) : T :=
  fold_right (plus K) 0 (zip (fun c v => c * nth i v 0) cs vs).

Lemma nth_comb m cs vs i : Forall (vec K m) vs -> nth i (comb m cs vs) 0 = lin cs vs i.
Proof.
  unfold lin. revert vs. induction cs as [|c cs IH]; intros [|v vs] H; cbn; try apply nth_zeros.
  inversion H; subst. rewrite nth_vadd, nth_scale, IH; auto.
  pose proof (comb_vec m cs vs H3) as A. pose proof (scale_vec m c v H2) as B.
  unfold vec in *. congruence.
Qed.

Lemma all_zero_or (l : list T) : (forall c, In c l -> c = 0) \/ exists c, In c l /\ c <> 0.
Proof.
  induction l as [|a l [IH|(c & H & N)]].
  - left. intros c [].
  - destruct (eq_dec a 0) as [->|N].
    + left. intros c [<-|H]; [reflexivity|apply IH, H].
    + right. exists a. split; [left; reflexivity|exact N].
  - right. exists c. split; [right; exact H|exact N].
Qed.

Lemma lin_app cs1 vs1 cs2 vs2 i : length cs1 = length vs1 ->
  lin (cs1 ++ cs2) (vs1 ++ vs2) i = lin cs1 vs1 i + lin cs2 vs2 i.
Proof.
  unfold lin. revert vs1. induction cs1 as [|c cs1 IH]; intros [|v vs1] H; cbn in *;
    try discriminate; [ring|]. rewrite IH by congruence. ring.
Qed.

(** More vectors than dimensions are linearly dependent. *)
Lemma dependent m vs : (m < length vs)%nat -> Forall (vec K m) vs ->
  exists cs, length cs = length vs /\ (exists c, In c cs /\ c <> 0) /\
    forall i, lin cs vs i = 0.
Proof.
  revert vs. induction m as [|m IH]; intros vs L F.
  - exists (repeat 1 (length vs)). split; [apply repeat_length|]. split.
    + exists 1. split.
      * destruct vs; [cbn in L; lia|left; reflexivity].
      * apply (F_1_neq_0 FT).
    + intros i. unfold lin. clear L. induction F as [|v vs H F' IH]; [reflexivity|]. cbn.
      unfold vec in H. destruct v; [|discriminate]. cbn in IH. rewrite IH. destruct i; cbn; ring.
  - destruct (all_zero_or (map hd0 vs)) as [Z|(h & Hh & N)].
    + (* all heads vanish *)
      destruct (IH (map (@tl T) vs)) as (cs & L' & Hc & E).
      * rewrite map_length. lia.
      * apply Forall_forall. intros u Hu. apply in_map_iff in Hu. destruct Hu as (v & <- & Hv).
        apply (proj1 (Forall_forall _ _) F) in Hv. unfold vec in *. destruct v; cbn in *; congruence.
      * rewrite map_length in L'. exists cs. split; [exact L'|]. split; [exact Hc|].
        intros [|i].
        -- clear - Z L' FT O. unfold lin. revert vs Z L'.
           induction cs as [|c cs IHc]; intros [|v vs] Z L; cbn in *; try discriminate; [reflexivity|].
           rewrite IHc; [|intros c' H; apply Z; right; exact H|congruence].
           assert (E : hd0 v = 0) by (apply Z; left; reflexivity).
           replace (nth 0 v 0) with (hd0 v) by (destruct v; reflexivity). rewrite E. ring.
        -- rewrite <- (E i). unfold lin. clear - L'. revert vs L'.
           induction cs as [|c cs IHc]; intros [|v vs] L; cbn in *; try discriminate; [reflexivity|].
           f_equal; [|apply IHc; congruence]. f_equal. destruct v; [destruct i; reflexivity|reflexivity].
    + apply in_map_iff in Hh. destruct Hh as (w & Ew & Hw). apply in_split in Hw.
      destruct Hw as (l1 & l2 & ->). subst h.
      assert (Fw : vec K (S m) w)
        by (apply (proj1 (Forall_forall _ _) F); apply in_or_app; right; left; reflexivity).
      assert (F12 : Forall (vec K (S m)) (l1 ++ l2)).
      { apply Forall_forall. intros v Hv. apply (proj1 (Forall_forall _ _) F).
        apply in_app_or in Hv. apply in_or_app. destruct Hv; [left|right; right]; assumption. }
      destruct (IH (map (reduce w) (l1 ++ l2))) as (cs & L' & Hc & E).
      * rewrite map_length. rewrite app_length in *. cbn in L. lia.
      * apply Forall_forall. intros u Hu. apply in_map_iff in Hu. destruct Hu as (v & <- & Hv).
        apply reduce_vec; [exact Fw|]. apply (proj1 (Forall_forall _ _) F12), Hv.
      * rewrite map_length, app_length in L'.
        set (c1 := firstn (length l1) cs). set (c2 := skipn (length l1) cs).
        assert (L1 : length c1 = length l1) by (unfold c1; rewrite firstn_length; lia).
        assert (L2 : length c2 = length l2) by (unfold c2; rewrite skipn_length; lia).
        assert (Ecs : cs = c1 ++ c2) by (symmetry; apply firstn_skipn).
        (* the coefficient of w *)
        set (cw := fold_right (plus K) 0 (zip (fun c v => c * (0 - hd0 v / hd0 w)) cs (l1 ++ l2))).
        exists (c1 ++ cw :: c2). split; [rewrite !app_length; cbn; lia|]. split.
        -- destruct Hc as (c & Hin & Nc). exists c. split; [|exact Nc].
           rewrite Ecs in Hin. apply in_app_or in Hin. apply in_or_app.
           destruct Hin; [left|right; right]; assumption.
        -- intros i. rewrite lin_app by exact L1.
           change (lin (cw :: c2) (w :: l2) i) with (cw * nth i w 0 + lin c2 l2 i).
           assert (A : lin c1 l1 i + (cw * nth i w 0 + lin c2 l2 i) =
                       lin cs (l1 ++ l2) i + cw * nth i w 0).
           { rewrite Ecs, lin_app by exact L1. ring. }
           rewrite A. clear A.
           assert (B : lin cs (l1 ++ l2) i + cw * nth i w 0 =
             lin cs (map (fun v => vsub K v (scale K (hd0 v / hd0 w) w)) (l1 ++ l2)) i).
           { unfold lin, cw. clear - L' F12 Fw FT O. assert (L : length cs = length (l1 ++ l2)).
             { rewrite app_length. exact L'. } clear L'.
             revert L F12. generalize (l1 ++ l2) as vs. clear l1 l2.
             induction cs as [|c cs IHc]; intros [|v vs] L F; cbn in *; try discriminate; [ring|].
             inversion F; subst. rewrite <- IHc by (congruence || assumption).
             rewrite nth_vsub, nth_scale.
             - ring.
             - unfold scale. rewrite map_length. unfold vec in *. congruence. }
           rewrite B. clear B. destruct i as [|i].
           ++ unfold lin. clear - N F12 Fw FT O. revert F12. generalize (l1 ++ l2) as vs. clear l1 l2.
              induction cs as [|c cs IHc]; intros [|v vs] F; cbn; try reflexivity.
              inversion F; subst. rewrite IHc by assumption.
              rewrite nth_vsub, nth_scale.
              ** replace (nth 0 v 0) with (hd0 v) by (destruct v; reflexivity).
                 replace (nth 0 w 0) with (hd0 w) by (destruct w; reflexivity).
                 field. exact N.
              ** unfold scale. rewrite map_length. unfold vec in *. congruence.
           ++ rewrite <- (E i). unfold lin. clear. generalize (l1 ++ l2) as vs.
              induction cs as [|c cs IHc]; intros [|v vs]; cbn; try reflexivity.
              rewrite IHc. f_equal. f_equal. unfold reduce.
              destruct (vsub K v _); [destruct i; reflexivity|reflexivity].
Qed.

(** Vectors that are pairwise orthogonal and not zero. *)
Fixpoint orthogonal (vs : list (list T)) : Prop :=
  match vs with
  | [] => True
  | v :: vs' => dot K v v <> 0 /\ (forall u, In u vs' -> dot K v u = 0) /\ orthogonal vs'
  end.

Lemma orthogonal_bound m vs : Forall (vec K m) vs -> orthogonal vs -> (length vs <= m)%nat.
Proof.
  intros F H. destruct (le_lt_dec (length vs) m) as [|L]; [assumption|exfalso].
  destruct (dependent m vs L F) as (cs & Lc & (c & Hin & N) & E).
  assert (Z : comb m cs vs = zeros K m).
  { apply (vec_ext m); [apply comb_vec, F|apply zeros_vec|].
    intros i. rewrite nth_comb, nth_zeros by exact F. apply E. }
  apply N. clear E L N.
  (* each coefficient vanishes *)
  assert (G : forall w, In w vs ->
    fold_right (plus K) 0 (zip (fun c v => c * dot K v w) cs vs) = 0).
  { intros w Hw. rewrite <- (dot_comb m) by
      (exact F || (apply (proj1 (Forall_forall _ _) F); exact Hw)).
    rewrite Z. apply dot_zeros. }
  clear Z. revert vs F H Lc G. induction cs as [|a cs IH]; [intros; destruct Hin|].
  intros [|v vs] F H Lc G; [discriminate|]. destruct H as (Hv & Ho & H). cbn in Lc.
  assert (A : a = 0).
  { specialize (G v (or_introl eq_refl)). cbn in G.
    assert (Q : fold_right (plus K) 0 (zip (fun c u => c * dot K u v) cs vs) = 0).
    { clear - Ho FT O. revert vs Ho. induction cs as [|b cs IHc]; intros [|u vs] Ho; cbn; try reflexivity.
      rewrite IHc by (intros; apply Ho; right; assumption).
      rewrite (dot_sym u v), (Ho u) by (left; reflexivity). ring. }
    rewrite Q in G. replace (a * dot K v v + 0) with (a * dot K v v) in G by ring.
    apply mul_zero in G. destruct G as [G|G]; [exact G|contradiction]. }
  destruct Hin as [<-|Hin]; [exact A|].
  apply (IH Hin vs); [inversion F; assumption|exact H|congruence|].
  intros w Hw. specialize (G w (or_intror Hw)). cbn in G. rewrite A in G.
  etransitivity; [|exact G]. ring.
Qed.

End Vectors.
