(** Reflection, and the independent Fourier modes. *)
From Verif Require Import Common LayoutModel LayoutSpec LayoutProofs1 LayoutProofs2 LayoutProofs4 FftModel FftSpec FftProofs1.
Open Scope Z_scope.

Lemma nth_error_combine_seq : forall (A : Type) (l : list A) a k,
  nth_error (combine (seq a (length l)) l) k = option_map (fun v => ((a + k)%nat, v)) (nth_error l k).
Proof.
  intros A l. induction l as [|x l IH]; intros a k; [now destruct k|]. cbn [length seq combine]. destruct k as [|k]; cbn [nth_error option_map].
  - now rewrite Nat.add_0_r.
  - rewrite IH. now replace (S a + k)%nat with (a + S k)%nat by lia.
Qed.

Lemma swap_at_spec : forall (V : Type) (l : list V) i j, (i < length l)%nat -> (j < length l)%nat ->
  exists l', swap_at l i j = Some l' /\ length l' = length l /\
    forall k, nth_error l' k = nth_error l (if Nat.eqb k i then j else if Nat.eqb k j then i else k).
Proof.
  intros V l i j Hi Hj. unfold swap_at.
  destruct (nth_error l i) as [a|] eqn:Ea; [|apply nth_error_None in Ea; lia].
  destruct (nth_error l j) as [b|] eqn:Eb; [|apply nth_error_None in Eb; lia].
  eexists. split; [reflexivity|]. split; [rewrite map_length, combine_length, seq_length; lia|].
  intros k. rewrite nth_error_map, nth_error_combine_seq. destruct (nth_error l k) as [v|] eqn:Ek.
  - cbn [option_map fst snd Nat.add]. destruct (Nat.eqb_spec k i); [congruence|]. destruct (Nat.eqb_spec k j); congruence.
  - apply nth_error_None in Ek. cbn [option_map]. destruct (Nat.eqb_spec k i); [lia|]. destruct (Nat.eqb_spec k j); [lia|].
    symmetry. now apply nth_error_None.
Qed.

Lemma reflect_column_spec : forall (V : Type) (l : list V),
  length (reflect_column l) = length l /\
  forall k, nth_error (reflect_column l) k =
    nth_error l (if (Nat.leb 1 k && Nat.ltb k (length l / 2)) || (Nat.ltb (length l - length l / 2) k && Nat.ltb k (length l))
                 then length l - k else k)%nat.
Proof.
  intros V l. unfold reflect_column. set (n := length l). set (h := (n / 2)%nat).
  assert (Hh : (2 * h <= n)%nat) by (unfold h; apply Nat.mul_div_le; lia).
  assert (forall m, (m <= h - 1)%nat -> let b := fold_left (fun b j => match swap_at b j (n - j) with Some b' => b' | None => b end) (seq 1 m) l in
    length b = n /\ forall k, nth_error b k = nth_error l (if (Nat.leb 1 k && Nat.leb k m) || (Nat.leb (n - m) k && Nat.ltb k n) then n - k else k)%nat) as H.
  { induction m as [|m IH]; intros Hm.
    - cbn [seq fold_left]. split; [reflexivity|]. intros k. f_equal.
      destruct (Nat.leb_spec 1 k), (Nat.leb_spec k 0), (Nat.leb_spec (n - 0) k), (Nat.ltb_spec k n); cbn [andb orb]; lia.
    - rewrite seq_S, fold_left_app. cbn [fold_left]. destruct (IH ltac:(lia)) as [L1 N1].
      set (b := fold_left _ (seq 1 m) l) in *. cbn zeta.
      destruct (swap_at_spec V b (1 + m)%nat (n - (1 + m))%nat) as (b' & Eb & Lb & Nb); [lia|lia|]. rewrite Eb.
      split; [lia|]. intros k. rewrite Nb, N1. f_equal.
      destruct (Nat.eqb_spec k (1 + m)%nat) as [->|H1]; [|destruct (Nat.eqb_spec k (n - (1 + m))%nat) as [->|H2]];
        repeat match goal with |- context [Nat.leb ?a ?b] => destruct (Nat.leb_spec a b) | |- context [Nat.ltb ?a ?b] => destruct (Nat.ltb_spec a b) end;
        cbn [andb orb]; lia. }
  destruct (H (h - 1)%nat ltac:(lia)) as [H1 H2]. split; [exact H1|]. intros k. rewrite H2. f_equal.
  destruct h as [|h'] eqn:Eh.
  - cbn [Nat.sub]. repeat match goal with |- context [Nat.leb ?a ?b] => destruct (Nat.leb_spec a b) | |- context [Nat.ltb ?a ?b] => destruct (Nat.ltb_spec a b) end;
        cbn [andb orb]; lia.
  - repeat match goal with |- context [Nat.leb ?a ?b] => destruct (Nat.leb_spec a b) | |- context [Nat.ltb ?a ?b] => destruct (Nat.ltb_spec a b) end;
        cbn [andb orb]; lia.
Qed.

(** Even length (or 1): the mirror image. *)
Lemma reflect_column_even : forall (V : Type) (v : Z -> V) L y, 0 < L -> Z.even L = true \/ L = 1 -> 0 <= y < L ->
  nth_error (reflect_column (map v (zrange 0 (Z.to_nat L)))) (Z.to_nat y) = Some (v (mirror L y)).
Proof.
  intros V v L y HL He Hy. rewrite (proj2 (reflect_column_spec _ _)). rewrite map_length, zrange_length.
  assert (Hev : exists h, L = 2 * h \/ L = 1).
  { destruct He as [He| ->]; [apply Z.even_spec in He; destruct He as [h ->]; exists h; now left|exists 0; now right]. }
  destruct Hev as [h Hev].
  assert (Hd : (Z.to_nat L / 2)%nat = Z.to_nat (L / 2)).
  { apply Nat2Z.inj. rewrite Nat2Z.inj_div, !Z2Nat.id by (try apply Z.div_pos; lia). reflexivity. }
  rewrite Hd.
  assert (Hd2 : L / 2 = h /\ L = 2 * h \/ L / 2 = 0 /\ L = 1).
  { destruct Hev as [-> | ->]; [left; split; [rewrite Z.mul_comm; apply Z.div_mul; lia|reflexivity]|now right]. }
  unfold mirror. assert (Hm : (L - y) mod L = if y =? 0 then 0 else L - y).
  { destruct (Z.eqb_spec y 0) as [->|]; [rewrite Z.sub_0_r; apply Z.mod_same; lia|apply Z.mod_small; lia]. }
  rewrite Hm.
  match goal with |- nth_error _ ?k = Some (v ?z) => replace k with (Z.to_nat z) end.
  - apply nth_error_map_zrange. destruct (Z.eqb_spec y 0); lia.
  - destruct (Z.eqb_spec y 0) as [->|Hy0];
      repeat match goal with |- context [Nat.leb ?a ?b] => destruct (Nat.leb_spec a b) | |- context [Nat.ltb ?a ?b] => destruct (Nat.ltb_spec a b) end;
        cbn [andb orb]; lia.
Qed.

Lemma reflect_column_odd : forall (V : Type) (v : Z -> V) h y, 0 < h -> y = h \/ y = h + 1 ->
  nth_error (reflect_column (map v (zrange 0 (Z.to_nat (2 * h + 1))))) (Z.to_nat y) = Some (v y).
Proof.
  intros V v h y Hh Hy. rewrite (proj2 (reflect_column_spec _ _)). rewrite map_length, zrange_length.
  assert (Hd : (Z.to_nat (2 * h + 1) / 2)%nat = Z.to_nat h).
  { symmetry. apply (Nat.div_unique _ _ _ 1); lia. }
  rewrite Hd. rewrite <- (nth_error_map_zrange V v (2 * h + 1) y) by lia. f_equal.
  repeat match goal with |- context [Nat.leb ?a ?b] => destruct (Nat.leb_spec a b) | |- context [Nat.ltb ?a ?b] => destruct (Nat.ltb_spec a b) end;
        cbn [andb orb]; lia.
Qed.

Lemma mirror_range : forall L y, 0 < L -> 0 <= mirror L y < L.
Proof. intros L y H. apply Z.mod_pos_bound. exact H. Qed.

Lemma mirror_cases : forall L y, 0 <= y < L -> mirror L y = if y =? 0 then 0 else L - y.
Proof.
  intros L y H. unfold mirror. destruct (Z.eqb_spec y 0) as [->|]; [rewrite Z.sub_0_r; apply Z.mod_same; lia|apply Z.mod_small; lia].
Qed.

Lemma mirror_site_length : forall ls dirs x, length (mirror_site ls dirs x) = length x.
Proof. intros. unfold mirror_site. now rewrite map_length, seq_length. Qed.

Lemma nth_mirror_site : forall ls dirs x j, (j < length x)%nat ->
  nth j (mirror_site ls dirs x) 0 = if existsb (Nat.eqb j) dirs then mirror (nth j ls 0) (nth j x 0) else nth j x 0.
Proof.
  intros ls dirs x j Hj. unfold mirror_site.
  match goal with |- nth j (map ?f _) 0 = _ => rewrite (nth_indep (map f (seq 0 (length x))) 0 (f 0%nat)) by (rewrite map_length, seq_length; lia); rewrite (map_nth f) end.
  rewrite seq_nth by lia. reflexivity.
Qed.

Lemma mirror_site_cons : forall ls d dirs x, (d < length x)%nat -> ~ In d dirs ->
  set_coord d (mirror (nth d ls 0) (nth d (mirror_site ls dirs x) 0)) (mirror_site ls dirs x) = mirror_site ls (d :: dirs) x.
Proof.
  intros ls d dirs x Hd Hn. apply list_ext; [now rewrite set_coord_length, !mirror_site_length|].
  intros j Hj. rewrite set_coord_length, mirror_site_length in Hj. rewrite nth_set_coord by (rewrite mirror_site_length; exact Hd).
  rewrite !nth_mirror_site by lia. cbn [existsb]. destruct (Nat.eqb_spec j d) as [->|Hjd]; cbn [orb]; [|reflexivity].
  destruct (existsb (Nat.eqb d) dirs) eqn:Ex; [|reflexivity]. exfalso. apply existsb_exists in Ex. destruct Ex as (d' & H1 & H2).
  apply Nat.eqb_eq in H2. now subst.
Qed.

Lemma mirror_site_nil : forall ls x, mirror_site ls [] x = x.
Proof.
  intros ls x. apply list_ext; [apply mirror_site_length|]. intros j Hj. rewrite mirror_site_length in Hj. now rewrite nth_mirror_site.
Qed.

(** The reflections of all columns, one direction after another, move every value to
    the mirror image. *)
Lemma along_reflect : forall (V : Type) L dir (g : list Z -> Z -> V) x e, 0 < L -> Z.even L = true \/ L = 1 ->
  0 <= nth dir x 0 < L -> along L dir reflect_column g x e = g (set_coord dir (mirror L (nth dir x 0)) x) e.
Proof.
  intros V L dir g x e HL He Hx. unfold along. apply nth_error_nth.
  rewrite (reflect_column_even V (fun k => g (set_coord dir k x) e) L (nth dir x 0) HL He Hx). reflexivity.
Qed.

Lemma along_all_reflect : forall (V : Type) ls (g : list Z -> Z -> V) dirs x e,
  NoDup dirs -> Forall (fun d => (d < length ls)%nat /\ (Z.even (nth d ls 0) = true \/ nth d ls 0 = 1)) dirs ->
  is_site ls x ->
  along_all ls (fun _ => reflect_column) dirs g x e = g (mirror_site ls dirs x) e.
Proof.
  intros V ls g dirs. revert g. induction dirs as [|d dirs IH]; intros g x e Hnd Hall Hx; [now rewrite mirror_site_nil|].
  inversion Hnd as [|d' l Hn Hnd']; subst. inversion Hall as [|d' l [Hd He] Hall']; subst.
  unfold along_all. cbn [fold_left]. fold (along_all ls (fun _ : nat => reflect_column) dirs (along (nth d ls 0) d reflect_column g)).
  rewrite IH by assumption. destruct Hx as [Lx Hx].
  assert (Hr : 0 <= nth d (mirror_site ls dirs x) 0 < nth d ls 0).
  { rewrite nth_mirror_site by lia. specialize (Hx d Hd). destruct (existsb _ _); [apply mirror_range|]; lia. }
  rewrite along_reflect by (assumption || lia). now rewrite mirror_site_cons by (assumption || lia).
Qed.

(** ** The independent modes *)
Lemma site_mirror : forall ls x, is_site ls x -> Forall (fun L => 0 < L) ls -> is_site ls (mirror_site ls (all_dirs ls) x).
Proof.
  intros ls x [H1 H2] Hp. split; [now rewrite mirror_site_length|]. intros j Hj. rewrite nth_mirror_site by lia.
  assert (E : existsb (Nat.eqb j) (all_dirs ls) = true).
  { apply existsb_exists. exists j. split; [apply in_seq; lia|apply Nat.eqb_refl]. }
  rewrite E. apply mirror_range. rewrite Forall_forall in Hp. apply Hp. now apply nth_In.
Qed.

Fixpoint mirror_list (ls x : list Z) : list Z :=
  match ls, x with L :: ls', y :: x' => mirror L y :: mirror_list ls' x' | _, _ => [] end.

Lemma mirror_all : forall ls x, length x = length ls -> mirror_site ls (all_dirs ls) x = mirror_list ls x.
Proof.
  intros ls x Hl. assert (Hn : forall ls x j, length x = length ls -> (j < length x)%nat -> nth j (mirror_list ls x) 0 = mirror (nth j ls 0) (nth j x 0) /\ length (mirror_list ls x) = length x).
  { clear. induction ls as [|L ls IH]; intros x j Hl Hj; destruct x as [|y x]; try discriminate; cbn [length] in *; [lia|].
    cbn [mirror_list length]. destruct j as [|j]; cbn [nth].
    - split; [reflexivity|]. destruct x as [|z x]; destruct ls as [|L' ls]; try discriminate; [reflexivity|]. f_equal. apply (IH (z :: x) 0%nat); cbn [length] in *; lia.
    - destruct (IH x j ltac:(lia) ltac:(lia)) as [H1 H2]. split; [exact H1|lia]. }
  apply list_ext.
  - rewrite mirror_site_length. destruct x as [|y x]; [destruct ls; [reflexivity|discriminate]|]. symmetry. apply (Hn ls (y :: x) 0%nat Hl). cbn [length]. lia.
  - intros j Hj. rewrite mirror_site_length in Hj. rewrite nth_mirror_site by lia.
    assert (E : existsb (Nat.eqb j) (all_dirs ls) = true).
    { apply existsb_exists. exists j. split; [apply in_seq; lia|apply Nat.eqb_refl]. }
    rewrite E. symmetry. now apply Hn.
Qed.

Lemma modes : forall ls x, inside ls x -> Forall (fun L => Z.even L = true) ls ->
  FFT_complex_to_real_site ls (mirror_list ls x) = - FFT_complex_to_real_site ls x /\
  (FFT_complex_to_real_site ls x = 0 <-> mirror_list ls x = x) /\
  (FFT_complex_to_real_site ls x = 1 \/ FFT_complex_to_real_site ls x = 0 \/ FFT_complex_to_real_site ls x = -1) /\
  mirror_list ls (mirror_list ls x) = x.
Proof.
  intros ls x H. induction H as [|L y ls x Hy H IH]; intros He.
  - cbn. intuition.
  - inversion He as [|L' ls' He1 He2]; subst. destruct (IH He2) as (I1 & I2 & I3 & I4).
    apply Z.even_spec in He1. destruct He1 as [h ->].
    assert (Hh : 2 * h / 2 = h) by (rewrite Z.mul_comm; apply Z.div_mul; lia).
    cbn [mirror_list FFT_complex_to_real_site]. rewrite Hh, (mirror_cases (2 * h) y Hy).
    assert (Hmm : mirror (2 * h) (if y =? 0 then 0 else 2 * h - y) = y).
    { destruct (Z.eqb_spec y 0) as [->|]; rewrite mirror_cases by lia; [reflexivity|]. destruct (Z.eqb_spec (2 * h - y) 0); lia. }
    rewrite Hmm, I4. clear Hmm.
    destruct (Z.eqb_spec y 0) as [Ey|Ey].
    + subst y. cbn [Z.ltb Z.compare andb]. destruct (Z.ltb_spec h 0); [lia|]. split; [exact I1|]. split; [|split; [exact I3|reflexivity]].
      rewrite I2. split; [now intros ->|now injection 1].
    + destruct (Z.ltb_spec 0 y), (Z.ltb_spec y h), (Z.ltb_spec h y), (Z.ltb_spec 0 (2 * h - y)), (Z.ltb_spec (2 * h - y) h), (Z.ltb_spec h (2 * h - y)); try lia; cbn [andb].
      * split; [reflexivity|]. split; [split; [discriminate|intros Hx; apply (f_equal (hd 0)) in Hx; cbn [hd] in Hx; lia]|]. split; [auto|reflexivity].
      * split; [reflexivity|]. split; [split; [discriminate|intros Hx; apply (f_equal (hd 0)) in Hx; cbn [hd] in Hx; lia]|]. split; [auto|reflexivity].
      * split; [exact I1|]. split; [|split; [exact I3|reflexivity]].
        rewrite I2. replace (2 * h - y) with y by lia. split; [now intros ->|now injection 1].
Qed.
