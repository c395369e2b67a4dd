(** Sums over ranks and sites. *)
From Coq Require Import Permutation.
From Verif Require Import Common LayoutModel LayoutSpec LayoutProofs1 LayoutProofs2 ReduceModel ReduceSpec.

Section Monoid.
  Context {V : Type}.
  Variables (op : V -> V -> V) (e : V).
  Hypothesis Hm : comm_monoid op e.

  Lemma m_assoc : forall a b c, op a (op b c) = op (op a b) c. Proof. apply Hm. Qed.
  Lemma m_comm : forall a b, op a b = op b a. Proof. apply Hm. Qed.
  Lemma m_unit : forall a, op e a = a. Proof. apply Hm. Qed.
  Lemma m_unit_r : forall a, op a e = a. Proof. intros. rewrite m_comm. apply m_unit. Qed.

  Lemma total_app : forall l l', total op e (l ++ l') = op (total op e l) (total op e l').
  Proof.
    induction l as [|a l IH]; intros l'; unfold total in *; cbn [app fold_right]; [rewrite m_unit; auto|].
    rewrite IH, m_assoc. auto.
  Qed.

  Lemma total_perm : forall l l', Permutation l l' -> total op e l = total op e l'.
  Proof.
    induction 1; unfold total in *; cbn [fold_right]; auto; try congruence.
    rewrite !m_assoc, (m_comm y x). auto.
  Qed.

  Lemma fold_left_total : forall A (g : A -> V) l a, fold_left (fun a i => op a (g i)) l a = op a (total op e (map g l)).
  Proof.
    intros A g. induction l as [|x l IH]; intros a; cbn [fold_left map]; [unfold total; cbn; rewrite m_unit_r; auto|].
    rewrite IH. unfold total. cbn [fold_right]. rewrite m_assoc. auto.
  Qed.

  Lemma combine_total : forall t (f : Z -> V), combine_ranks op t f = total op e (map f (leaves t)).
  Proof.
    induction t as [r|a IHa b IHb]; intros f; cbn [combine_ranks leaves].
    - unfold total. cbn. rewrite m_unit_r. auto.
    - rewrite IHa, IHb, map_app, total_app. auto.
  Qed.

  Lemma total_flat_map : forall A B (f : A -> list B) (g : B -> V) l,
    total op e (map (fun a => total op e (map g (f a))) l) = total op e (map g (flat_map f l)).
  Proof.
    intros A B f g. induction l as [|x l IH]; cbn [map flat_map]; auto.
    unfold total in *. cbn [fold_right]. rewrite IH. rewrite map_app. symmetry. apply total_app.
  Qed.

  (** With one rank having an extra value. *)
  Lemma total_extra : forall (f : Z -> V) x l, NoDup l -> In 0 l ->
    total op e (map (fun r => if r =? 0 then op (f r) x else f r) l) = op x (total op e (map f l)).
  Proof.
    intros f x. induction l as [|a l IH]; intros Hn Hi; [destruct Hi|]. inversion Hn as [|? ? Ha Hn']; subst.
    unfold total in *. cbn [map fold_right]. destruct (Z.eqb_spec a 0) as [->|Ha0].
    - rewrite (map_ext_In _ _ (fun r => if r =? 0 then op (f r) x else f r) f).
      + rewrite m_assoc, (m_comm x). auto.
      + intros r Hr. destruct (Z.eqb_spec r 0) as [->|]; auto. contradiction.
    - destruct Hi as [->|Hi]; [congruence|]. rewrite IH by auto. rewrite m_assoc, (m_comm (f a) x), <- m_assoc. auto.
  Qed.
End Monoid.

Section Sites.
  Variable lat : lattice.
  Hypothesis Hv : valid_lattice lat.

  Definition visited (p : parity) (r : Z) : list (list Z) := map (coordinates (nodeinfo lat r)) (loop_indices (nodeinfo lat r) p).

  Lemma rank_range : forall r, In r (zrange 0 (Z.to_nat (number_of_nodes lat))) <-> is_rank lat r.
  Proof. intros r. rewrite zrange_In. unfold is_rank. lia. Qed.

  Lemma NoDup_flat_map : forall A B (f : A -> list B) l, NoDup l -> (forall a, In a l -> NoDup (f a)) ->
    (forall a b x, In a l -> In b l -> In x (f a) -> In x (f b) -> a = b) -> NoDup (flat_map f l).
  Proof.
    intros A B f. induction l as [|a l IH]; intros Hn Hf Hd; cbn [flat_map]; [constructor|].
    inversion Hn as [|? ? Ha Hn']; subst. apply NoDup_app_intro.
    - apply Hf. simpl; auto.
    - apply IH; auto. + intros; apply Hf; simpl; auto. + intros x y z ? ? ? ?. apply (Hd x y z); simpl; auto.
    - intros x Hx Hx'. apply in_flat_map in Hx'. destruct Hx' as (b & Hb & Hb'). apply Ha.
      rewrite (Hd a b x); simpl; auto.
  Qed.

  Lemma all_sites_perm : forall p sites, enumerates (l_size lat) p sites ->
    Permutation (flat_map (visited p) (zrange 0 (Z.to_nat (number_of_nodes lat)))) sites.
  Proof.
    intros p sites [Hn HI]. apply NoDup_Permutation; auto.
    - apply NoDup_flat_map; [apply zrange_NoDup| |].
      + intros r Hr. apply (loop_visits lat r p Hv). apply rank_range; auto.
      + intros r s c Hr Hs Hcr Hcs. apply rank_range in Hr. apply rank_range in Hs.
        apply (proj2 (loop_visits lat r p Hv Hr)) in Hcr. apply (proj2 (loop_visits lat s p Hv Hs)) in Hcs.
        destruct Hcr as [Hcr _]. destruct Hcs as [Hcs _].
        assert (Hc := holds_is_site lat r c Hv Hr Hcr). destruct (owner_unique lat c Hv Hc) as [_ O].
        rewrite (proj1 (O r Hr)), (proj1 (O s Hs)); auto.
    - intros c. rewrite HI, in_flat_map. split.
      + intros (r & Hr & Hc). apply rank_range in Hr. apply (proj2 (loop_visits lat r p Hv Hr)) in Hc.
        destruct Hc as [Hh Hp]. split; auto. apply (holds_is_site lat r); auto.
      + intros [Hc Hp]. destruct (owner_unique lat c Hv Hc) as [R O]. exists (node_rank lat c).
        split; [apply rank_range; auto|]. apply (proj2 (loop_visits lat _ p Hv R)). split; auto. apply O; auto.
  Qed.

  (** Sum over ranks of the local loops = sum over sites. *)
  Lemma rank_sums : forall (V : Type) (op : V -> V -> V) e, comm_monoid op e ->
    forall p (g : rank_store V) G sites, represents lat g G -> enumerates (l_size lat) p sites ->
    total op e (map (fun r => local_reduce op (nodeinfo lat r) p (g r) e) (zrange 0 (Z.to_nat (number_of_nodes lat)))) =
    total op e (map G sites).
  Proof.
    intros V op e Hm p g G sites HG He. rewrite <- (total_perm op e Hm _ _ (Permutation_map G (all_sites_perm p sites He))).
    rewrite <- (total_flat_map op e Hm). f_equal. apply map_ext_In. intros r Hr. apply rank_range in Hr.
    unfold local_reduce. rewrite (fold_left_total op e Hm), (m_unit op e Hm). unfold visited. rewrite map_map. f_equal.
    apply map_ext_In. intros i Hi. destruct (coordinates_inverse lat r Hv Hr) as [I1 I2].
    assert (Hin : In (coordinates (nodeinfo lat r) i) (visited p r)) by (unfold visited; apply in_map; auto).
    apply (proj2 (loop_visits lat r p Hv Hr)) in Hin. destruct Hin as [Hh _].
    rewrite <- (HG r _ Hr Hh). f_equal. symmetry. apply I2.
    unfold loop_indices in Hi. apply zrange_In in Hi.
    assert (Hev : 0 <= n_even (nodeinfo lat r) <= volume (nodeinfo lat r)).
    { unfold volume. destruct (rank_box _ _ Hv Hr) as (mn & sz & E' & Hl & Hs & _). rewrite E'.
      destruct (box_counts_nonneg mn sz Hl Hs). cbn [n_even n_odd] in *. unfold volume in *. lia. }
    destruct p; cbn [loop_begin loop_end] in Hi; lia.
  Qed.
End Sites.
