(** Proofs about binning and interpolation. *)
From Coq Require Import QArith Lqa.
From Verif Require Import Common RandomModel SrcbufModel MucaModel MucaSpec.
Open Scope nat_scope.

Lemma qle_iff : forall a b, qle a b = true <-> (a <= b)%Q.
Proof. intros. apply Qle_bool_iff. Qed.
Lemma qle_false : forall a b, qle a b = false <-> (b < a)%Q.
Proof.
  intros a b. split.
  - intros H. destruct (Qlt_le_dec b a) as [L|L]; [exact L|]. apply qle_iff in L. congruence.
  - intros H. destruct (qle a b) eqn:E; [|reflexivity]. apply qle_iff in E. exfalso. lra.
Qed.
Lemma qlt_iff : forall a b, qlt a b = true <-> (a < b)%Q.
Proof.
  intros a b. unfold qlt. fold (qle b a). split.
  - intros H. apply qle_false. destruct (qle b a); [discriminate H|reflexivity].
  - intros H. apply qle_false in H. rewrite H. reflexivity.
Qed.
Lemma qlt_false : forall a b, qlt a b = false <-> (b <= a)%Q.
Proof. intros a b. unfold qlt. fold (qle b a). rewrite negb_false_iff. apply qle_iff. Qed.

Lemma increasing_lt : forall l, increasing l -> forall d i a b, nth_error l i = Some a -> nth_error l (i + S d) = Some b -> (a < b)%Q.
Proof.
  intros l Hl. induction d as [|d IH]; intros i a b Ha Hb.
  - replace (i + 1) with (S i) in Hb by lia. apply (Hl i a b Ha Hb).
  - assert (Hs : i + S d < length l).
    { assert (i + S (S d) < length l) by (apply nth_error_Some; congruence). lia. }
    destruct (nth_error l (i + S d)) as [c|] eqn:Ec; [|apply nth_error_None in Ec; lia].
    apply (Qlt_trans _ c); [apply (IH i a c Ha Ec)|]. apply (Hl (i + S d) c b Ec).
    replace (S (i + S d)) with (i + S (S d)) by lia. exact Hb.
Qed.

Lemma increasing_le : forall l, increasing l -> forall i j a b, i <= j -> nth_error l i = Some a -> nth_error l j = Some b -> (a <= b)%Q.
Proof.
  intros l Hl i j a b Hij Ha Hb. destruct (Nat.eq_dec i j) as [->|Hne].
  - replace b with a by congruence. lra.
  - apply Qlt_le_weak. apply (increasing_lt l Hl (j - i - 1) i a b Ha). replace (i + S (j - i - 1)) with j by lia. exact Hb.
Qed.

(** The bisection finds the place where the entries stop being less than [x]. *)
Lemma bisect_spec : forall n l x k first len, len <= n -> first <= k -> k <= first + len -> first + len <= length l ->
  (forall j a, j < k -> nth_error l j = Some a -> (a < x)%Q) ->
  (forall j a, k <= j -> nth_error l j = Some a -> (x <= a)%Q) ->
  bisect n l first len x = Some k.
Proof.
  induction n as [|n IH]; intros l x k first len Hn H1 H2 H3 Hlo Hhi.
  - destruct len; [|lia]. cbn [bisect]. f_equal. lia.
  - destruct len as [|len]; [cbn [bisect]; f_equal; lia|]. cbn [bisect]. set (half := S len / 2).
    assert (Hh : half < S len) by (apply Nat.div_lt; lia).
    destruct (nth_error l (first + half)) as [m|] eqn:Em; [|apply nth_error_None in Em; lia].
    cbn [bind]. destruct (qlt m x) eqn:E.
    + apply qlt_iff in E. assert (Hk : first + half < k).
      { destruct (le_lt_dec k (first + half)) as [L|L]; [|exact L]. specialize (Hhi _ _ L Em). lra. }
      apply IH; try lia; assumption.
    + apply qlt_false in E. assert (Hk : k <= first + half).
      { destruct (le_lt_dec k (first + half)) as [L|L]; [exact L|]. specialize (Hlo _ _ L Em). lra. }
      apply IH; try lia; assumption.
Qed.

Lemma split_point : forall l x, increasing l ->
  exists k, k <= length l /\ (forall j a, j < k -> nth_error l j = Some a -> (a < x)%Q) /\
    (forall j a, k <= j -> nth_error l j = Some a -> (x <= a)%Q).
Proof.
  intros l x Hl.
  assert (H : forall n, n <= length l -> exists k, k <= length l /\ (forall j a, j < k -> nth_error l j = Some a -> (a < x)%Q) /\
    (forall j a, k <= j -> j < n -> nth_error l j = Some a -> (x <= a)%Q)).
  { induction n as [|n IH]; intros Hn.
    - exists 0. split; [lia|]. split; [intros; lia|intros; lia].
    - destruct (nth_error l n) as [y|] eqn:Ey; [|apply nth_error_None in Ey; lia].
      destruct (Qlt_le_dec y x) as [L|L].
      + exists (S n). split; [exact Hn|]. split; [|intros; lia]. intros j a Hj Ha.
        apply (Qle_lt_trans _ y); [|exact L]. apply (increasing_le l Hl j n a y); [lia|exact Ha|exact Ey].
      + destruct IH as [k [K1 [K2 K3]]]; [lia|]. exists k. split; [exact K1|]. split; [exact K2|].
        intros j a Hj Hj' Ha. destruct (Nat.eq_dec j n) as [->|Hne]; [congruence|]. apply (K3 j a); [exact Hj|lia|exact Ha]. }
  destruct (H (length l) (Nat.le_refl _)) as [k [K1 [K2 K3]]]. exists k. split; [exact K1|]. split; [exact K2|].
  intros j a Hj Ha. apply (K3 j a Hj); [|exact Ha]. apply nth_error_Some. congruence.
Qed.

Lemma lower_bound_spec : forall l x, increasing l ->
  exists k, lower_bound l x = Some k /\ k <= length l /\ (forall j a, j < k -> nth_error l j = Some a -> (a < x)%Q) /\
    (forall j a, k <= j -> nth_error l j = Some a -> (x <= a)%Q).
Proof.
  intros l x Hl. destruct (split_point l x Hl) as [k [K1 [K2 K3]]]. exists k. split; [|split; [exact K1|split; [exact K2|exact K3]]].
  apply bisect_spec; try lia; assumption.
Qed.

(** Between the first and the last entry there is a unique interval. *)
Lemma lower_bound_inside : forall l x f b, increasing l -> front l = Some f -> back l = Some b -> (f < x)%Q -> (x < b)%Q ->
  exists i c d, lower_bound l x = Some (S i) /\ nth_error l i = Some c /\ nth_error l (S i) = Some d /\ (c < x)%Q /\ (x <= d)%Q.
Proof.
  intros l x f b Hl Hf Hb H1 H2. destruct (lower_bound_spec l x Hl) as [k [K0 [K1 [K2 K3]]]].
  unfold front in Hf. assert (Hb' : nth_error l (length l - 1) = Some b) by (destruct l; [discriminate Hb|exact Hb]).
  destruct k as [|i]; [specialize (K3 0 f (Nat.le_refl _) Hf); lra|].
  assert (Hi : S i < length l).
  { destruct (Nat.eq_dec (S i) (length l)) as [E|E]; [|lia]. assert (Hlt : length l - 1 < S i) by lia. specialize (K2 _ _ Hlt Hb'). lra. }
  destruct (nth_error l i) as [c|] eqn:Ec; [|apply nth_error_None in Ec; lia].
  destruct (nth_error l (S i)) as [d|] eqn:Ed; [|apply nth_error_None in Ed; lia].
  exists i, c, d. split; [exact K0|]. split; [exact Ec|]. split; [exact Ed|]. split; [apply (K2 i); [lia|exact Ec]|apply (K3 (S i)); [lia|exact Ed]].
Qed.

Lemma in_bin_unique : forall l x i j, increasing l -> in_bin l i x -> in_bin l j x -> i = j.
Proof.
  assert (H : forall l x i j, increasing l -> in_bin l i x -> in_bin l j x -> i < j -> False).
  { intros l x i j Hl [a [b [A1 [A2 [A3 A4]]]]] [c [d [B1 [B2 [B3 B4]]]]] Hij.
    assert (b <= c)%Q by (apply (increasing_le l Hl (S i) j b c); [lia|exact A2|exact B1]). lra. }
  intros l x i j Hl Hi Hj. destruct (Nat.lt_trichotomy i j) as [L|[E|L]]; [exfalso; apply (H l x i j); assumption|exact E|exfalso; apply (H l x j i); assumption].
Qed.

Lemma ends : forall (l : list Q), 0 < length l -> exists f b, front l = Some f /\ back l = Some b /\ nth_error l (length l - 1) = Some b.
Proof.
  intros l Hl. unfold front. destruct (nth_error l 0) as [f|] eqn:Ef; [|apply nth_error_None in Ef; lia].
  destruct (nth_error l (length l - 1)) as [b|] eqn:Eb; [|apply nth_error_None in Eb; lia].
  exists f, b. split; [reflexivity|]. split; [|reflexivity]. unfold back. destruct l; [cbn [length] in Hl; lia|exact Eb].
Qed.

Lemma find_bin_spec : forall l x, 0 < length l -> increasing l ->
  (find_OP_bin_index x l = Some None /\ ~ in_range l x) \/
  (exists i, find_OP_bin_index x l = Some (Some i) /\ in_range l x /\ in_bin l i x /\ S i < length l).
Proof.
  intros l x Hlen Hl. destruct (ends l Hlen) as [f [b [Hf [Hb Hb']]]].
  unfold find_OP_bin_index. rewrite Hf, Hb. cbn [bind].
  destruct (qle x f) eqn:E1.
  { apply qle_iff in E1. left. split; [reflexivity|]. intros [a [c [A1 [A2 [A3 A4]]]]]. unfold front in Hf. assert (a = f) by congruence. subst a. lra. }
  apply qle_false in E1. destruct (qle b x) eqn:E2.
  { apply qle_iff in E2. left. split; [reflexivity|]. intros [a [c [A1 [A2 [A3 A4]]]]]. assert (c = b) by congruence. subst c. lra. }
  apply qle_false in E2. right.
  destruct (lower_bound_inside l x f b Hl Hf Hb E1 E2) as [i [c [d [K0 [K1 [K2 [K3 K4]]]]]]].
  exists i. rewrite K0. cbn [bind]. split; [reflexivity|]. split.
  - exists f, b. split; [exact Hf|]. split; [exact Hb'|]. split; assumption.
  - split; [exists c, d; split; [exact K1|split; [exact K2|split; assumption]]|]. apply nth_error_Some. congruence.
Qed.

Lemma find_bin_iff : forall l x, 0 < length l -> increasing l ->
  (find_OP_bin_index x l = Some None <-> ~ in_range l x) /\
  (forall i, find_OP_bin_index x l = Some (Some i) <-> in_range l x /\ in_bin l i x).
Proof.
  intros l x Hlen Hl. destruct (find_bin_spec l x Hlen Hl) as [[H1 H2]|[i [H1 [H2 [H3 H4]]]]]; rewrite H1.
  - split; [split; [intros _; exact H2|reflexivity]|]. intros i. split; [discriminate|]. intros [H _]. contradiction.
  - split; [split; [discriminate|intros H; contradiction]|]. intros j. split.
    + intros H. injection H as <-. split; assumption.
    + intros [_ H]. do 2 f_equal. apply (in_bin_unique l x); assumption.
Qed.

Lemma bin_hit_find : forall l h x,
  bin_hit_OP_value l h x = bind (find_OP_bin_index x l) (fun b => match b with None => Some h | Some i => add_at i 1 h end).
Proof.
  intros l h x. unfold bin_hit_OP_value, find_OP_bin_index. destruct (front l); [|reflexivity]. cbn [bind].
  destruct (back l); [|reflexivity]. cbn [bind]. destruct (qle x q); [reflexivity|]. destruct (qle q0 x); [reflexivity|].
  destruct (lower_bound l x) as [[|i]|]; reflexivity.
Qed.

Lemma add_at_spec : forall h i d, i < length h ->
  exists h', add_at i d h = Some h' /\ length h' = length h /\ zsum h' = (zsum h + d)%Z /\
    (forall j, nth j h' 0%Z = (nth j h 0 + (if Nat.eqb j i then d else 0))%Z).
Proof.
  induction h as [|x h IH]; intros i d Hi; [cbn [length] in Hi; lia|]. destruct i as [|i]; unfold add_at; cbn [nth_error bind put].
  - exists ((x + d)%Z :: h). split; [reflexivity|]. split; [reflexivity|]. split; [cbn; lia|]. intros [|j]; cbn [nth Nat.eqb]; lia.
  - destruct (IH i d) as [h' [H1 [H2 [H3 H4]]]]; [cbn [length] in Hi; lia|]. unfold add_at in H1.
    destruct (nth_error h i) as [y|]; [|discriminate H1]. cbn [bind] in *. injection H1 as H1.
    exists (x :: h'). rewrite H1. split; [reflexivity|]. split; [cbn [length]; lia|]. split.
    + change (zsum (x :: h')) with (x + zsum h')%Z. change (zsum (x :: h)) with (x + zsum h)%Z. lia.
    + intros [|j]; cbn [nth Nat.eqb]; [lia|apply H4].
Qed.

Lemma bin_all_spec : forall l xs h, 0 < length l -> increasing l -> length h + 1 = length l ->
  exists h', bin_all l h xs = Some h' /\ length h' = length h /\
    (forall i, i < length h -> counts (fun x => in_range l x /\ in_bin l i x) xs (nth i h' 0 - nth i h 0)%Z) /\
    counts (in_range l) xs (zsum h' - zsum h)%Z.
Proof.
  intros l. induction xs as [|x xs IH]; intros h Hlen Hl Hh; cbn [bin_all].
  - exists h. split; [reflexivity|]. split; [reflexivity|]. split.
    + intros i Hi. rewrite Z.sub_diag. constructor.
    + rewrite Z.sub_diag. constructor.
  - rewrite bin_hit_find. destruct (find_bin_spec l x Hlen Hl) as [[H1 H2]|[i [H1 [H2 [H3 H4]]]]]; rewrite H1; cbn [bind].
    + destruct (IH h Hlen Hl Hh) as [h' [G1 [G2 [G3 G4]]]]. exists h'. split; [exact G1|]. split; [exact G2|]. split.
      * intros j Hj. apply counts_no; [intros [H _]; contradiction|apply G3; exact Hj].
      * apply counts_no; assumption.
    + destruct (add_at_spec h i 1) as [h1 [A1 [A2 [A3 A4]]]]; [lia|]. rewrite A1. cbn [bind].
      destruct (IH h1 Hlen Hl ltac:(lia)) as [h' [G1 [G2 [G3 G4]]]]. exists h'. split; [exact G1|]. split; [lia|]. split.
      * intros j Hj. specialize (G3 j ltac:(lia)). rewrite A4 in G3. destruct (Nat.eqb_spec j i) as [Eji|Hne]; [subst j|].
        -- replace (nth i h' 0 - nth i h 0)%Z with (nth i h' 0 - (nth i h 0 + 1) + 1)%Z by lia. apply counts_yes; [split; assumption|exact G3].
        -- apply counts_no; [intros [_ H]; apply Hne; apply (in_bin_unique l x); assumption|].
           replace (nth j h' 0 - nth j h 0)%Z with (nth j h' 0 - (nth j h 0 + 0))%Z by lia. exact G3.
      * replace (zsum h' - zsum h)%Z with (zsum h' - zsum h1 + 1)%Z by lia. apply counts_yes; assumption.
Qed.

(** *** Interpolation *)

Lemma weight_function_spec : forall hard cs ws x, 0 < length cs -> length ws = length cs -> increasing cs ->
  exists f b wf wb, nth_error cs 0 = Some f /\ nth_error cs (length cs - 1) = Some b /\
    nth_error ws 0 = Some wf /\ nth_error ws (length ws - 1) = Some wb /\
    (((x <= f)%Q /\ weight_function hard cs ws x = Some (if hard then Inf else Fin wf)) \/
     ((b <= x)%Q /\ (f < x)%Q /\ weight_function hard cs ws x = Some (if hard then Inf else Fin wb)) \/
     ((f < x)%Q /\ (x < b)%Q /\ exists i c0 c1 w0 w1, nth_error cs i = Some c0 /\ nth_error cs (S i) = Some c1 /\
        nth_error ws i = Some w0 /\ nth_error ws (S i) = Some w1 /\ (c0 < x)%Q /\ (x <= c1)%Q /\
        weight_function hard cs ws x = Some (Fin (w0 + (x - c0) * ((w1 - w0) / (c1 - c0)))%Q))).
Proof.
  intros hard cs ws x Hlen Hw Hl. destruct (ends cs Hlen) as [f [b [Hf [Hb Hb']]]]. destruct (ends ws) as [wf [wb [Hwf [Hwb Hwb']]]]; [lia|].
  exists f, b, wf, wb. split; [exact Hf|]. split; [exact Hb'|]. split; [exact Hwf|]. split; [exact Hwb'|].
  unfold weight_function. rewrite Hf, Hb, Hwf, Hwb. cbn [bind].
  destruct (qle x f) eqn:E1.
  { left. split; [apply qle_iff; exact E1|]. destruct hard; reflexivity. }
  apply qle_false in E1. right. destruct (qle b x) eqn:E2.
  { left. split; [apply qle_iff; exact E2|]. split; [exact E1|]. destruct hard; reflexivity. }
  apply qle_false in E2. right. split; [exact E1|]. split; [exact E2|].
  destruct (lower_bound_inside cs x f b Hl Hf Hb E1 E2) as [i [c [d [K0 [K1 [K2 [K3 K4]]]]]]].
  assert (Hi : S i < length cs) by (apply nth_error_Some; congruence).
  destruct (nth_error ws i) as [w0|] eqn:W0; [|apply nth_error_None in W0; lia].
  destruct (nth_error ws (S i)) as [w1|] eqn:W1; [|apply nth_error_None in W1; lia].
  exists i, c, d, w0, w1. split; [exact K1|]. split; [exact K2|]. split; [first [reflexivity|exact W0]|]. split; [exact W1|]. split; [exact K3|]. split; [exact K4|].
  rewrite K0. cbn [bind]. replace (i + 1) with (S i) by lia. rewrite W1, W0, K1, K2. cbn [bind].
  destruct (Qeq_bool (d - c) 0) eqn:E; [|reflexivity]. apply Qeq_bool_iff in E. assert (c < d)%Q by (apply (Hl i); assumption). lra.
Qed.

Lemma linear_mul : forall x c0 c1 w0 w1 : Q, (c0 < c1)%Q ->
  (((w0 + (x - c0) * ((w1 - w0) / (c1 - c0))) - w0) * (c1 - c0) == (x - c0) * (w1 - w0))%Q.
Proof. intros. field. lra. Qed.

(** Linear interpolation stays between the two weights. *)
Lemma linear_between : forall x c0 c1 w0 w1 v lo hi : Q, (c0 < c1)%Q -> (c0 <= x)%Q -> (x <= c1)%Q ->
  (v == w0 + (x - c0) * ((w1 - w0) / (c1 - c0)))%Q -> (lo <= w0)%Q -> (lo <= w1)%Q -> (w0 <= hi)%Q -> (w1 <= hi)%Q ->
  (lo <= v)%Q /\ (v <= hi)%Q.
Proof.
  intros x c0 c1 w0 w1 v lo hi Hc H1 H2 Hv L0 L1 H0 H3.
  assert (E : ((v - w0) * (c1 - c0) == (x - c0) * (w1 - w0))%Q) by (rewrite Hv; apply linear_mul; exact Hc).
  assert (E2 : (v * (c1 - c0) == w0 * (c1 - x) + w1 * (x - c0))%Q).
  { assert (v * (c1 - c0) == (v - w0) * (c1 - c0) + w0 * (c1 - c0))%Q by ring. rewrite H, E. ring. }
  assert (P1 : (0 <= c1 - x)%Q) by lra. assert (P2 : (0 <= x - c0)%Q) by lra. assert (P3 : (0 < c1 - c0)%Q) by lra.
  split.
  - destruct (Qlt_le_dec v lo) as [L|L]; [|exact L]. exfalso.
    assert (A : (0 <= (w0 - lo) * (c1 - x))%Q) by (apply Qmult_le_0_compat; lra).
    assert (B : (0 <= (w1 - lo) * (x - c0))%Q) by (apply Qmult_le_0_compat; lra).
    assert (D : (0 < (lo - v) * (c1 - c0))%Q) by (apply Qmult_lt_0_compat; lra).
    assert (G : ((lo - v) * (c1 - c0) == - ((w0 - lo) * (c1 - x)) - (w1 - lo) * (x - c0))%Q).
    { assert ((lo - v) * (c1 - c0) == lo * (c1 - c0) - v * (c1 - c0))%Q by ring. rewrite H, E2. ring. }
    lra.
  - destruct (Qlt_le_dec hi v) as [L|L]; [|exact L]. exfalso.
    assert (A : (0 <= (hi - w0) * (c1 - x))%Q) by (apply Qmult_le_0_compat; lra).
    assert (B : (0 <= (hi - w1) * (x - c0))%Q) by (apply Qmult_le_0_compat; lra).
    assert (D : (0 < (v - hi) * (c1 - c0))%Q) by (apply Qmult_lt_0_compat; lra).
    assert (G : ((v - hi) * (c1 - c0) == - ((hi - w0) * (c1 - x)) - (hi - w1) * (x - c0))%Q).
    { assert ((v - hi) * (c1 - c0) == v * (c1 - c0) - hi * (c1 - c0))%Q by ring. rewrite H, E2. ring. }
    lra.
Qed.

Lemma weight_linear : forall hard cs ws x i c0 c1 w0 w1, length ws = length cs -> increasing cs ->
  nth_error cs i = Some c0 -> nth_error cs (S i) = Some c1 -> nth_error ws i = Some w0 -> nth_error ws (S i) = Some w1 ->
  (c0 <= x)%Q -> (x <= c1)%Q -> (hard = false \/ in_range cs x) ->
  exists v, weight_function hard cs ws x = Some (Fin v) /\ (v == w0 + (x - c0) * ((w1 - w0) / (c1 - c0)))%Q.
Proof.
  intros hard cs ws x i c0 c1 w0 w1 Hw Hl C0 C1 W0 W1 H0 H1 Hr.
  assert (Hi : S i < length cs) by (apply nth_error_Some; congruence).
  assert (Hc : (c0 < c1)%Q) by (apply (Hl i); assumption).
  destruct (weight_function_spec hard cs ws x ltac:(lia) Hw Hl) as [f [b [wf [wb [F [B [WF [WB H]]]]]]]].
  destruct H as [[A1 A2]|[[A1 [A2 A3]]|[A1 [A2 [j [d0 [d1 [v0 [v1 [D0 [D1 [V0 [V1 [G1 [G2 G3]]]]]]]]]]]]]]].
  - assert (f <= c0)%Q by (apply (increasing_le cs Hl 0 i f c0); [lia|exact F|exact C0]).
    assert (Hx : (x == c0)%Q) by lra.
    assert (Hi0 : i = 0).
    { destruct i as [|i]; [reflexivity|]. assert (f < c0)%Q by (apply (increasing_lt cs Hl i 0 f c0 F C0)). lra. }
    subst i. assert (w0 = wf) by congruence. subst wf.
    destruct Hr as [->|[a [e [R1 [R2 [R3 R4]]]]]]; [|assert (a = f) by congruence; subst a; lra].
    exists w0. split; [exact A2|]. rewrite Hx. field. lra.
  - assert (c1 <= b)%Q by (apply (increasing_le cs Hl (S i) (length cs - 1) c1 b); [lia|exact C1|exact B]).
    assert (Hx : (x == c1)%Q) by lra.
    assert (Hi0 : S i = length cs - 1).
    { destruct (Nat.eq_dec (S i) (length cs - 1)) as [E|E]; [exact E|]. exfalso.
      assert (c1 < b)%Q; [|lra]. apply (increasing_lt cs Hl (length cs - 1 - S i - 1) (S i) c1 b C1). replace (S i + S (length cs - 1 - S i - 1)) with (length cs - 1) by lia. exact B. }
    assert (w1 = wb) by (rewrite Hw, <- Hi0 in WB; congruence). subst wb.
    destruct Hr as [->|[a [e [R1 [R2 [R3 R4]]]]]]; [|assert (e = b) by congruence; subst e; lra].
    exists w1. split; [exact A3|]. rewrite Hx. field. lra.
  - exists (v0 + (x - d0) * ((v1 - v0) / (d1 - d0)))%Q. split; [exact G3|].
    assert (Hj : in_bin cs j x) by (exists d0, d1; split; [exact D0|split; [exact D1|split; assumption]]).
    destruct (Qlt_le_dec c0 x) as [L|L].
    + assert (E : i = j) by (apply (in_bin_unique cs x); [exact Hl|exists c0, c1; split; [exact C0|split; [exact C1|split; assumption]]|exact Hj]).
      subst j. assert (d0 = c0) by congruence. assert (d1 = c1) by congruence. assert (v0 = w0) by congruence. assert (v1 = w1) by congruence. subst. reflexivity.
    + assert (Hx : (x == c0)%Q) by lra.
      destruct i as [|i]; [assert (f = c0) by congruence; subst f; lra|].
      destruct (nth_error cs i) as [e|] eqn:Ee; [|apply nth_error_None in Ee; lia].
      assert (Hec : (e < c0)%Q) by (apply (Hl i); assumption).
      assert (E : i = j) by (apply (in_bin_unique cs x); [exact Hl|exists e, c0; split; [exact Ee|split; [exact C0|split; lra]]|exact Hj]).
      subst j. assert (d0 = e) by congruence. assert (d1 = c0) by congruence. assert (v1 = w0) by congruence. subst.
      rewrite Hx. field. split; lra.
Qed.

Lemma weight_centre : forall hard cs ws i c w, length ws = length cs -> increasing cs ->
  nth_error cs i = Some c -> nth_error ws i = Some w -> (hard = false \/ (0 < i /\ S i < length cs)) ->
  exists v, weight_function hard cs ws c = Some (Fin v) /\ (v == w)%Q.
Proof.
  intros hard cs ws i c w Hw Hl Hc Hwi Hh. assert (Hi : i < length cs) by (apply nth_error_Some; congruence).
  assert (Hr : hard = false \/ in_range cs c).
  { destruct Hh as [->|[H1 H2]]; [left; reflexivity|right].
    destruct (ends cs) as [f [b [F [_ B]]]]; [lia|]. exists f, b. split; [exact F|]. split; [exact B|]. split.
    - apply (increasing_lt cs Hl (i - 1) 0 f c F). replace (0 + S (i - 1)) with i by lia. exact Hc.
    - apply (increasing_lt cs Hl (length cs - 1 - i - 1) i c b Hc). replace (i + S (length cs - 1 - i - 1)) with (length cs - 1) by lia. exact B. }
  destruct (Nat.eq_dec (S i) (length cs)) as [E|E].
  - destruct i as [|i].
    + destruct Hh as [->|[H1 _]]; [|lia].
      destruct (weight_function_spec false cs ws c ltac:(lia) Hw Hl) as [f [b [wf [wb [F [B [WF [WB H]]]]]]]].
      assert (f = c) by congruence. subst f. assert (wf = w) by congruence. subst wf.
      destruct H as [[_ H]|[[_ [H _]]|[H _]]]; [exists w; split; [exact H|reflexivity]|lra|lra].
    + destruct (nth_error cs i) as [c0|] eqn:E0; [|apply nth_error_None in E0; lia].
      destruct (nth_error ws i) as [w0|] eqn:E1; [|apply nth_error_None in E1; lia].
      assert (c0 < c)%Q by (apply (Hl i); assumption).
      destruct (weight_linear hard cs ws c i c0 c w0 w Hw Hl E0 Hc E1 Hwi ltac:(lra) ltac:(lra) Hr) as [v [V1 V2]].
      exists v. split; [exact V1|]. rewrite V2. field. lra.
  - destruct (nth_error cs (S i)) as [c1|] eqn:E0; [|apply nth_error_None in E0; lia].
    destruct (nth_error ws (S i)) as [w1|] eqn:E1; [|apply nth_error_None in E1; lia].
    assert (c < c1)%Q by (apply (Hl i); assumption).
    destruct (weight_linear hard cs ws c i c c1 w w1 Hw Hl Hc E0 Hwi E1 ltac:(lra) ltac:(lra) Hr) as [v [V1 V2]].
    exists v. split; [exact V1|]. rewrite V2. field. lra.
Qed.
