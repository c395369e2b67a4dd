(** Buffers, folds that may fail, and the numbering of columns. *)
From Verif Require Import Common LayoutModel LayoutSpec LayoutProofs1 LayoutProofs2 LayoutProofs4 FftModel FftSpec.
Open Scope Z_scope.

(** ** Lists *)
Lemma all_some_map : forall (A B : Type) (f : A -> option B) (g : A -> B) l,
  (forall x, In x l -> f x = Some (g x)) -> all_some (map f l) = Some (map g l).
Proof.
  intros A B f g l. induction l as [|x l IH]; intros H; [reflexivity|].
  cbn [map all_some]. rewrite H by now left. rewrite IH; [reflexivity|]. intros y Hy. apply H. now right.
Qed.

Lemma nth_error_zrange : forall n a k, (k < n)%nat -> nth_error (zrange a n) k = Some (a + Z.of_nat k).
Proof.
  induction n as [|n IH]; intros a k H; [lia|]. cbn [zrange]. destruct k as [|k]; cbn [nth_error]; [f_equal; lia|].
  rewrite IH by lia. f_equal. lia.
Qed.

Lemma nth_error_map_zrange : forall (V : Type) (v : Z -> V) n z, 0 <= z < n ->
  nth_error (map v (zrange 0 (Z.to_nat n))) (Z.to_nat z) = Some (v z).
Proof.
  intros V v n z Hz. rewrite nth_error_map, nth_error_zrange by lia. cbn [option_map]. do 2 f_equal. lia.
Qed.

Lemma zrange_S_r : forall n a, zrange a (S n) = zrange a n ++ [a + Z.of_nat n].
Proof.
  intros n a. replace (S n) with (n + 1)%nat by lia. rewrite zrange_app. reflexivity.
Qed.

Lemma zrange_split : forall n a l1 x l2, zrange a n = l1 ++ x :: l2 -> l1 = zrange a (length l1) /\ x = a + Z.of_nat (length l1).
Proof.
  induction n as [|n IH]; intros a l1 x l2 H; [destruct l1; discriminate|].
  cbn [zrange] in H. destruct l1 as [|y l1]; cbn [app length] in *.
  - injection H as <- _. split; [reflexivity|lia].
  - injection H as <- H. apply IH in H. destruct H as [H1 H2]. split; [cbn [zrange]; now rewrite <- H1|lia].
Qed.

Lemma combine_map : forall (A B C : Type) (f : A -> B) (g : A -> C) l,
  combine (map f l) (map g l) = map (fun x => (f x, g x)) l.
Proof. intros A B C f g l. induction l as [|x l IH]; [reflexivity|]. cbn [map combine]. now rewrite IH. Qed.

Lemma find_map_zrange : forall (A : Type) (P : A -> bool) (g : Z -> A) k n a, a <= k < a + Z.of_nat n ->
  (forall i, a <= i < a + Z.of_nat n -> P (g i) = (i =? k)) -> find P (map g (zrange a n)) = Some (g k).
Proof.
  intros A P g k n. induction n as [|n IH]; intros a Hk H; [lia|].
  cbn [zrange map find]. rewrite H by lia. destruct (Z.eqb_spec a k) as [->|E]; [reflexivity|].
  apply IH; [lia|]. intros i Hi. apply H. lia.
Qed.

Lemma zsum_S_r : forall l x, zsum (l ++ [x]) = zsum l + x.
Proof. intros l x. rewrite zsum_app. cbn. lia. Qed.

(** A fold that may fail, with an invariant over the part done. *)
Lemma option_fold_inv : forall (A B : Type) (f : A -> B -> option A) (P : list B -> A -> Prop) l a0,
  P [] a0 ->
  (forall l1 b l2 a, l = l1 ++ b :: l2 -> P l1 a -> exists a', f a b = Some a' /\ P (l1 ++ [b]) a') ->
  exists a', option_fold f l a0 = Some a' /\ P l a'.
Proof.
  intros A B f P l a0 H0 Hs. unfold option_fold.
  assert (forall l2 l1 a, l = l1 ++ l2 -> P l1 a ->
            exists a', fold_left (fun acc b => match acc with Some x => f x b | None => None end) l2 (Some a) = Some a' /\ P l a') as G.
  { induction l2 as [|b l2 IH]; intros l1 a E Ha.
    - exists a. split; [reflexivity|]. now rewrite E, app_nil_r.
    - destruct (Hs l1 b l2 a E Ha) as [a' [Ea Pa]]. cbn [fold_left]. rewrite Ea.
      apply (IH (l1 ++ [b])); [now rewrite <- app_assoc|exact Pa]. }
  apply (G l [] a0); [reflexivity|exact H0].
Qed.

(** ** Buffers *)
Section Buffers.
Context {V : Type}.
Implicit Types (v : Z -> V).

Lemma read_spec : forall (b : buffer V) off n v, 0 <= off -> 0 <= n -> off + n <= b_size b ->
  (forall z, 0 <= z < n -> b_at b (off + z) = Some (v z)) -> read b off n = Some (map v (zrange 0 (Z.to_nat n))).
Proof.
  intros b off n v H1 H2 H3 H. unfold read.
  rewrite (proj2 (Z.leb_le _ _) H1), (proj2 (Z.leb_le _ _) H2), (proj2 (Z.leb_le _ _) H3). cbn [andb].
  replace (zrange off (Z.to_nat n)) with (map (fun z => off + z) (zrange 0 (Z.to_nat n))) by (rewrite zrange_map_add; f_equal; lia).
  rewrite map_map. apply all_some_map. intros z Hz. apply zrange_In in Hz. apply H. lia.
Qed.

Lemma write_spec : forall (b : buffer V) off l, 0 <= off -> off + Z.of_nat (length l) <= b_size b ->
  exists b', write b off l = Some b' /\ b_size b' = b_size b /\
    (forall z, 0 <= z < Z.of_nat (length l) -> b_at b' (off + z) = nth_error l (Z.to_nat z)) /\
    (forall a, a < off \/ off + Z.of_nat (length l) <= a -> b_at b' a = b_at b a).
Proof.
  intros b off l H1 H2. unfold write. rewrite (proj2 (Z.leb_le _ _) H1), (proj2 (Z.leb_le _ _) H2). cbn [andb].
  eexists. split; [reflexivity|]. split; [reflexivity|]. split.
  - intros z Hz. cbn [b_at]. rewrite (proj2 (Z.leb_le off (off + z))), (proj2 (Z.ltb_lt _ _)) by lia. cbn [andb].
    f_equal. lia.
  - intros a Ha. cbn [b_at]. destruct (Z.leb_spec off a); [|reflexivity]. destruct (Z.ltb_spec a (off + Z.of_nat (length l))); [lia|reflexivity].
Qed.
End Buffers.

(** ** Components *)
Lemma set_coord_length : forall d y x, length (set_coord d y x) = length x.
Proof. intros d y x. revert d. induction x as [|a x IH]; intros [|d]; cbn [set_coord length]; auto. Qed.

Lemma nth_set_coord : forall d y x j, (d < length x)%nat ->
  nth j (set_coord d y x) 0 = if Nat.eqb j d then y else nth j x 0.
Proof.
  intros d y x. revert d. induction x as [|a x IH]; intros [|d] j H; cbn [length] in H; [lia|lia| |].
  - cbn [set_coord]. destruct j; reflexivity.
  - cbn [set_coord]. destruct j; [reflexivity|]. cbn [nth Nat.eqb]. apply IH. lia.
Qed.

Lemma list_ext : forall (a b : list Z), length a = length b -> (forall j, (j < length a)%nat -> nth j a 0 = nth j b 0) -> a = b.
Proof. intros a b H1 H2. apply (nth_ext a b 0 0); assumption. Qed.

Lemma set_coord_same : forall d x, (d < length x)%nat -> set_coord d (nth d x 0) x = x.
Proof.
  intros d x H. apply list_ext; [apply set_coord_length|]. intros j _. rewrite nth_set_coord by exact H.
  destruct (Nat.eqb_spec j d) as [->|]; reflexivity.
Qed.

Lemma set_coord_twice : forall d y z x, set_coord d y (set_coord d z x) = set_coord d y x.
Proof. intros d y z x. revert d. induction x as [|a x IH]; intros [|d]; cbn [set_coord]; [reflexivity..|]. now rewrite IH. Qed.

(** ** The numbering of the columns *)
Fixpoint lcoords (mn sz : list Z) (m : Z) : list Z :=
  match mn, sz with
  | a :: mn', s :: sz' => (a + m mod s) :: lcoords mn' sz' (m / s)
  | _, _ => []
  end.

Fixpoint perp (dir : nat) (mn sz x : list Z) : Z :=
  match mn, sz, x with
  | a :: mn', s :: sz', b :: x' =>
      match dir with
      | O => logical_index_acc 1 mn' sz' x'
      | S d => (b - a) + s * perp d mn' sz' x'
      end
  | _, _, _ => 0
  end.

Fixpoint col (dir : nat) (mn sz : list Z) (m y : Z) : list Z :=
  match mn, sz with
  | a :: mn', s :: sz' =>
      match dir with
      | O => y :: lcoords mn' sz' m
      | S d => (a + m mod s) :: col d mn' sz' (m / s) y
      end
  | _, _ => []
  end.

Fixpoint tot (dir : nat) (sz : list Z) : Z :=
  match sz, dir with
  | [], _ => 1
  | _ :: sz', O => zprod sz'
  | s :: sz', S d => s * tot d sz'
  end.

Lemma tot_zprod : forall dir sz, (dir < length sz)%nat -> zprod sz = tot dir sz * nth dir sz 0.
Proof.
  intros dir sz. revert dir. induction sz as [|s sz IH]; intros [|d] H; cbn [length] in H; [lia|lia| |].
  - rewrite zprod_cons. cbn [tot nth]. lia.
  - rewrite zprod_cons. cbn [tot nth]. rewrite (IH d) by lia. lia.
Qed.

Lemma tot_pos : forall dir sz, Forall (fun s => 0 < s) sz -> 0 < tot dir sz.
Proof.
  intros dir sz. revert dir. induction sz as [|s sz IH]; intros [|d] H; cbn [tot]; [lia|lia| |].
  - apply zprod_pos. now inversion H.
  - inversion H; subst. specialize (IH d H3). nia.
Qed.

Lemma dot_after : forall sz x mn dir d s, (dir < d)%nat ->
  length x = length sz -> length mn = length sz ->
  dot_diff (offsets dir d s sz) x mn = s * logical_index_acc 1 mn sz x.
Proof.
  induction sz as [|n sz IH]; intros x mn dir d s Hd H1 H2; destruct x as [|b x], mn as [|a mn]; try discriminate.
  - cbn. lia.
  - cbn [offsets]. destruct (Nat.eqb_spec d dir) as [E|_]; [lia|]. cbn [dot_diff].
    rewrite IH by (cbn [length] in *; lia). rewrite logical_index_cons. lia.
Qed.

Lemma dot_perp : forall sz x mn dir d s, (dir < length sz)%nat -> length x = length sz -> length mn = length sz ->
  dot_diff (offsets (d + dir) d s sz) x mn = s * perp dir mn sz x + (nth dir x 0 - nth dir mn 0).
Proof.
  induction sz as [|n sz IH]; intros x mn dir d s Hd H1 H2; cbn [length] in Hd; [lia|].
  destruct x as [|b x], mn as [|a mn]; try discriminate. cbn [length] in H1, H2. cbn [offsets].
  destruct dir as [|dir].
  - rewrite Nat.add_0_r, Nat.eqb_refl. cbn [dot_diff perp nth]. rewrite dot_after by lia. lia.
  - destruct (Nat.eqb_spec d (d + S dir)) as [E|_]; [lia|]. cbn [dot_diff perp nth].
    replace (d + S dir)%nat with (S d + dir)%nat by lia. rewrite IH by lia. lia.
Qed.

(** The address of element [e] of site [x]. *)
Lemma site_address : forall ni dir E x e, (dir < length (n_siz ni))%nat -> length x = length (n_siz ni) ->
  length (n_min ni) = length (n_siz ni) ->
  site_offset ni dir E x + e * elem_offset ni dir =
  (perp dir (n_min ni) (n_siz ni) x * E + e) * nth dir (n_siz ni) 0 + (nth dir x 0 - nth dir (n_min ni) 0).
Proof.
  intros ni dir E x e H1 H2 H3. unfold site_offset, elem_offset.
  rewrite (dot_perp (n_siz ni) x (n_min ni) dir 0) by assumption. lia.
Qed.

Lemma in_region_cons : forall a mn s sz b x, in_region (a :: mn) (s :: sz) (b :: x) <-> a <= b < a + s /\ in_region mn sz x.
Proof.
  intros a mn s sz b x. rewrite !in_region_box. cbn [in_box]. rewrite !Bool.andb_true_iff, Z.leb_le, Z.ltb_lt. intuition lia.
Qed.

Lemma lidx_range : forall sz mn x, in_region mn sz x -> 0 <= logical_index_acc 1 mn sz x < zprod sz.
Proof.
  induction sz as [|s sz IH]; intros mn x H.
  - destruct H as [H1 [H2 _]]. destruct mn, x; try discriminate. cbn. lia.
  - destruct mn as [|a mn], x as [|b x]; try (destruct H as [H1 [H2 _]]; discriminate).
    apply in_region_cons in H. destruct H as [H1 H2]. specialize (IH _ _ H2).
    rewrite logical_index_cons, zprod_cons. nia.
Qed.

Lemma lcoords_lidx : forall sz mn x, in_region mn sz x -> lcoords mn sz (logical_index_acc 1 mn sz x) = x.
Proof.
  induction sz as [|s sz IH]; intros mn x H.
  - destruct H as [H1 [H2 _]]. destruct mn, x; try discriminate. reflexivity.
  - destruct mn as [|a mn], x as [|b x]; try (destruct H as [H1 [H2 _]]; discriminate).
    apply in_region_cons in H. destruct H as [H1 H2]. rewrite logical_index_cons. cbn [lcoords].
    rewrite Z.mul_comm, Z.mod_add, Z.div_add by lia. rewrite Z.mod_small, Z.div_small by lia. cbn [Z.add].
    rewrite IH by exact H2. f_equal. lia.
Qed.

Lemma lidx_lcoords : forall sz mn m, length mn = length sz -> Forall (fun s => 0 < s) sz -> 0 <= m < zprod sz ->
  in_region mn sz (lcoords mn sz m) /\ logical_index_acc 1 mn sz (lcoords mn sz m) = m.
Proof.
  induction sz as [|s sz IH]; intros mn m Hl Hp Hm; destruct mn as [|a mn]; try discriminate.
  - cbn in *. split; [|lia]. split; [reflexivity|split; [reflexivity|cbn; intros; lia]].
  - inversion Hp; subst. rewrite zprod_cons in Hm. cbn [lcoords].
    assert (Hd : 0 <= m / s < zprod sz) by (split; [apply Z.div_pos; lia|apply Z.div_lt_upper_bound; lia]).
    destruct (IH mn (m / s)) as [H3 H4]; [cbn [length] in Hl; lia|assumption|exact Hd|].
    assert (Hb := Z.mod_pos_bound m s ltac:(lia)). split.
    + apply in_region_cons. split; [lia|exact H3].
    + rewrite logical_index_cons, H4. assert (E := Z.div_mod m s ltac:(lia)). lia.
Qed.

Lemma perp_range : forall sz dir mn x, (dir < length sz)%nat -> in_region mn sz x -> 0 <= perp dir mn sz x < tot dir sz.
Proof.
  induction sz as [|s sz IH]; intros dir mn x Hd H; cbn [length] in Hd; [lia|].
  destruct mn as [|a mn], x as [|b x]; try (destruct H as [H1 [H2 _]]; discriminate).
  apply in_region_cons in H. destruct H as [H1 H2]. destruct dir as [|dir]; cbn [perp tot].
  - now apply lidx_range.
  - specialize (IH dir mn x ltac:(lia) H2). nia.
Qed.

Lemma col_perp : forall sz dir mn x, (dir < length sz)%nat -> in_region mn sz x ->
  col dir mn sz (perp dir mn sz x) (nth dir x 0) = x.
Proof.
  induction sz as [|s sz IH]; intros dir mn x Hd H; cbn [length] in Hd; [lia|].
  destruct mn as [|a mn], x as [|b x]; try (destruct H as [H1 [H2 _]]; discriminate).
  apply in_region_cons in H. destruct H as [H1 H2]. destruct dir as [|dir]; cbn [perp col nth].
  - now rewrite lcoords_lidx.
  - rewrite (Z.mul_comm s), Z.mod_add, Z.div_add by lia. rewrite Z.mod_small, Z.div_small by lia. cbn [Z.add].
    rewrite IH by (assumption || lia). f_equal. lia.
Qed.

Lemma col_region : forall sz dir mn m y, (dir < length sz)%nat -> length mn = length sz ->
  Forall (fun s => 0 < s) sz -> 0 <= m < tot dir sz -> nth dir mn 0 <= y < nth dir mn 0 + nth dir sz 0 ->
  in_region mn sz (col dir mn sz m y) /\ perp dir mn sz (col dir mn sz m y) = m.
Proof.
  induction sz as [|s sz IH]; intros dir mn m y Hd Hl Hp Hm Hy; cbn [length] in Hd; [lia|].
  destruct mn as [|a mn]; [discriminate|]. cbn [length] in Hl. inversion Hp; subst. destruct dir as [|dir]; cbn [perp col nth tot] in *.
  - destruct (lidx_lcoords sz mn m) as [H3 H4]; [lia|assumption|exact Hm|]. split; [|exact H4].
    apply in_region_cons. split; [lia|exact H3].
  - assert (Hdv : 0 <= m / s < tot dir sz) by (split; [apply Z.div_pos; lia|apply Z.div_lt_upper_bound; lia]).
    destruct (IH dir mn (m / s) y) as [H3 H4]; [lia|lia|assumption|exact Hdv|exact Hy|].
    assert (Hb := Z.mod_pos_bound m s ltac:(lia)). split.
    + apply in_region_cons. split; [lia|exact H3].
    + rewrite H4. assert (E := Z.div_mod m s ltac:(lia)). lia.
Qed.

Lemma col_nth : forall sz dir mn m y, (dir < length sz)%nat -> length mn = length sz -> nth dir (col dir mn sz m y) 0 = y.
Proof.
  induction sz as [|s sz IH]; intros dir mn m y Hd Hl; cbn [length] in Hd; [lia|].
  destruct mn as [|a mn]; [discriminate|]. cbn [length] in Hl. destruct dir as [|dir]; cbn [col nth]; [reflexivity|]. apply IH; lia.
Qed.

Lemma col_set : forall sz dir mn m y z, length mn = length sz -> set_coord dir z (col dir mn sz m y) = col dir mn sz m z.
Proof.
  induction sz as [|s sz IH]; intros dir mn m y z Hl; destruct mn as [|a mn]; try discriminate.
  - destruct dir; reflexivity.
  - cbn [length] in Hl. destruct dir as [|dir]; cbn [col set_coord]; [reflexivity|]. rewrite IH by lia. reflexivity.
Qed.

(** They do not depend on the component along [dir]. *)
Lemma col_row : forall sz dir mn m y u w, length mn = length sz ->
  col dir (set_coord dir u mn) (set_coord dir w sz) m y = col dir mn sz m y.
Proof.
  induction sz as [|s sz IH]; intros dir mn m y u w Hl; destruct mn as [|a mn]; try discriminate.
  - destruct dir; reflexivity.
  - cbn [length] in Hl. destruct dir as [|dir]; cbn [col set_coord]; [reflexivity|]. rewrite IH by lia. reflexivity.
Qed.

Lemma tot_row : forall sz dir w, tot dir (set_coord dir w sz) = tot dir sz.
Proof.
  induction sz as [|s sz IH]; intros [|dir] w; cbn [tot set_coord]; [reflexivity..|]. now rewrite IH.
Qed.
