(** Proofs about clusters on a lattice: sizes, surfaces, links. *)
From Coq Require Import Sorted.
From Verif Require Import Common LayoutModel LayoutSpec LayoutProofs1 LayoutProofs2 LayoutProofs4 LayoutProofs8.
From Verif Require Import ReduceSpec ReduceProofs1 SelectModel SelectProofs1 ClusterModel ClusterSpec ClusterProofs1 ClusterProofs2.

(** ** Sizes *)
Section Sizes.
  Variable lat : lattice.
  Hypothesis Hv : valid_lattice lat.
  Let ls := l_size lat.

  (** The labels in the memory of a rank. *)
  Definition buffer (st : rank_store Z) (r : Z) : list Z := map (st r) (zrange 0 (Z.to_nat (volume (nodeinfo lat r)))).

  Lemma buffer_labels : forall st labels r, represents lat st labels -> is_rank lat r ->
    buffer st r = map labels (visited lat ALL r).
  Proof.
    intros st labels r Hst Hr. unfold buffer, visited, loop_indices, loop_begin, loop_end. rewrite Z.sub_0_r, map_map.
    apply map_ext_In. intros i Hi. apply zrange_In in Hi.
    destruct (coordinates_inverse lat r Hv Hr) as [_ I2]. destruct (I2 i) as [Hh E]; [lia|].
    rewrite <- (Hst r _ Hr Hh), E. auto.
  Qed.

  Lemma span_perm : forall st labels sites, represents lat st labels -> enumerates ls ALL sites ->
    Permutation (span (buffer st) 0 (number_of_nodes lat)) (map labels sites).
  Proof.
    intros st labels sites Hst Hs. unfold span. rewrite Z.sub_0_r.
    rewrite (map_ext_In _ _ (buffer st) (fun r => map labels (visited lat ALL r))).
    - rewrite <- flat_map_concat_map. rewrite <- map_flat_map. apply Permutation_map. apply all_sites_perm; auto.
    - intros r Hr. apply buffer_labels; auto. apply rank_range; auto.
  Qed.

  Lemma count_labels : forall (labels : list Z -> Z) sites l, count_occ Z.eq_dec (map labels sites) l = length (filter (fun x => labels x =? l) sites).
  Proof.
    induction sites as [|a sites IH]; intros l; cbn [map count_occ filter]; auto. rewrite IH.
    destruct (Z.eq_dec (labels a) l), (Z.eqb_spec (labels a) l); try congruence; auto.
  Qed.

  Lemma count_perm : forall l l' x, Permutation l l' -> count_occ Z.eq_dec l x = count_occ Z.eq_dec l' x.
  Proof. intros. apply Permutation_count_occ. auto. Qed.
End Sizes.

(** ** Surface *)
Section Area.
  Variable lat : lattice.
  Hypothesis Hv : valid_lattice lat.
  Let ls := l_size lat.
  Variable sites : list (list Z).
  Hypothesis Hsites : enumerates ls ALL sites.

  Lemma zsum_map_add : forall A (f g : A -> Z) l, zsum (map (fun x => f x + g x) l) = zsum (map f l) + zsum (map g l).
  Proof. induction l; cbn [map]; rewrite ?zsum_cons; [reflexivity|lia]. Qed.

  Lemma zsum_zero : forall A (l : list A), zsum (map (fun _ => 0) l) = 0.
  Proof. induction l; cbn [map]; rewrite ?zsum_cons; [reflexivity|lia]. Qed.

  Lemma zsum_swap : forall A B (f : A -> B -> Z) la lb,
    zsum (map (fun a => zsum (map (f a) lb)) la) = zsum (map (fun b => zsum (map (fun a => f a b) la)) lb).
  Proof.
    induction la as [|a la IH]; intros lb; cbn [map].
    - change (zsum (@nil Z)) with 0. symmetry. apply zsum_zero.
    - rewrite zsum_cons, IH. rewrite <- zsum_map_add. f_equal. 
  Qed.

  Lemma zsum_perm : forall l l', Permutation l l' -> zsum l = zsum l'.
  Proof. induction 1; rewrite ?zsum_cons; try lia. Qed.

  Lemma shift_perm : forall d, is_direction ls d -> Permutation (map (fun x => neighbour lat x d) sites) sites.
  Proof.
    intros d Hd. destruct Hsites as [Hnd Hin].
    assert (Hpos : Forall (fun x => 0 < x) ls) by apply Hv.
    assert (Hd' : is_direction ls (opp_dir (Z.of_nat (length ls)) d)) by (apply opp_dir_range; auto).
    apply NoDup_Permutation; auto.
    - apply NoDup_map_inj; auto. intros x y Hx Hy E. apply Hin in Hx. apply Hin in Hy.
      rewrite <- (nbr_opp_inverse ls d x), <- (nbr_opp_inverse ls d y) by tauto. unfold neighbour in E. fold ls in E. rewrite E. auto.
    - intros c. rewrite in_map_iff. split.
      + intros (x & <- & Hx). apply Hin in Hx. apply Hin. split; [|exact I]. apply nbr_site; tauto.
      + intros Hc. apply Hin in Hc. destruct Hc as [Hc _].
        exists (neighbour lat c (opp_dir (Z.of_nat (length ls)) d)). split.
        * assert (E := nbr_opp_inverse ls (opp_dir (Z.of_nat (length ls)) d) c Hpos Hd' Hc).
          replace (opp_dir (Z.of_nat (length ls)) (opp_dir (Z.of_nat (length ls)) d)) with d in E by (unfold opp_dir; lia). exact E.
        * apply Hin. split; [|exact I]. apply nbr_site; auto.
  Qed.

  Lemma dirs_perm : forall n : nat, Permutation (zrange 0 (2 * n)) (zrange 0 n ++ map (opp_dir (Z.of_nat n)) (zrange 0 n)).
  Proof.
    intros n. apply NoDup_Permutation.
    - apply zrange_NoDup.
    - apply NoDup_app_intro; [apply zrange_NoDup| |].
      + apply NoDup_map_inj; [|apply zrange_NoDup]. unfold opp_dir. intros. lia.
      + intros x Hx Hx'. apply in_map_iff in Hx'. destruct Hx' as (y & <- & Hy). apply zrange_In in Hx. apply zrange_In in Hy. unfold opp_dir in Hx. lia.
    - intros x. rewrite in_app_iff, in_map_iff, !zrange_In. split.
      + intros H. destruct (Z.lt_ge_cases x (Z.of_nat n)); [left; lia|right]. exists (opp_dir (Z.of_nat n) x).
        rewrite zrange_In. unfold opp_dir. lia.
      + intros [H|(y & <- & H)]; [lia|]. apply zrange_In in H. unfold opp_dir. lia.
  Qed.

  Definition b2z (b : bool) : Z := if b then 1 else 0.

  Lemma filter_count : forall A (p : A -> bool) l, Z.of_nat (length (filter p l)) = zsum (map (fun x => b2z (p x)) l).
  Proof. induction l; cbn [filter map]; [reflexivity|]. rewrite zsum_cons. unfold b2z at 1. destruct (p a); cbn [length]; lia. Qed.

  Lemma zsum_prod : forall A B (f : A * B -> Z) la lb,
    zsum (map f (list_prod la lb)) = zsum (map (fun a => zsum (map (fun b => f (a, b)) lb)) la).
  Proof.
    induction la as [|a la IH]; intros lb; cbn [list_prod map]; [reflexivity|].
    rewrite map_app, zsum_app, zsum_cons, IH, map_map. reflexivity.
  Qed.

  Lemma area_surface : forall labels lbl,
    area lat labels sites lbl = Z.of_nat (length (surface_links lat (fun x => labels x =? lbl) sites)).
  Proof.
    intros labels lbl. unfold surface_links. rewrite filter_count, zsum_prod. cbn [fst snd].
    set (n := length (l_size lat)). set (ins := fun x => labels x =? lbl).
    assert (Ea : area lat labels sites lbl = zsum (map (fun x => zsum (map (fun d => b2z (ins x && negb (ins (neighbour lat x d)))) (zrange 0 (2 * n)))) sites)).
    { unfold area. f_equal. apply map_ext. intros x. unfold ins. destruct (labels x =? lbl).
      - f_equal. apply map_ext. intros d. destruct (labels (neighbour lat x d) =? lbl); reflexivity.
      - symmetry. apply zsum_zero. }
    rewrite Ea. rewrite zsum_swap. rewrite (zsum_perm _ _ (Permutation_map _ (dirs_perm n))).
    rewrite map_app, zsum_app, map_map.
    rewrite (zsum_swap _ _ (fun x d => b2z (xorb (labels x =? lbl) (labels (neighbour lat x d) =? lbl)))).
    rewrite <- zsum_map_add. f_equal. apply map_ext_In. intros d Hd. apply zrange_In in Hd.
    assert (Hdir : is_direction ls d) by (unfold is_direction; fold ls in n; lia).
    rewrite <- (zsum_perm _ _ (Permutation_map (fun a => b2z (ins a && negb (ins (neighbour lat a (opp_dir (Z.of_nat n) d))))) (shift_perm d Hdir))).
    rewrite map_map. rewrite <- zsum_map_add. f_equal. apply map_ext_In. intros x Hx. apply Hsites in Hx. destruct Hx as [Hx _].
    assert (E : neighbour lat (neighbour lat x d) (opp_dir (Z.of_nat n) d) = x).
    { unfold neighbour. apply nbr_opp_inverse; auto. apply Hv. }
    rewrite E. unfold ins. destruct (labels x =? lbl), (labels (neighbour lat x d) =? lbl); reflexivity.
  Qed.
End Area.

(** ** Links *)
Section Links.
  Variable lat : lattice.
  Hypothesis Hv : valid_lattice lat.
  Let ls := l_size lat.
  Variable link : Z -> list Z -> Z.

  Lemma link_type_range : forall x, 0 <= link_type lat link x <= 255.
  Proof. intros. unfold link_type, background. destruct (existsb _ _); lia. Qed.

  Lemma up_direction : forall d, 0 <= d < Z.of_nat (length ls) -> is_direction ls d.
  Proof. intros. unfold is_direction. lia. Qed.

  Lemma link_types : forall x, is_site ls x ->
    (link_type lat link x = 1 <-> exists y, linked ls link x y) /\ (link_type lat link x = 1 \/ link_type lat link x = 255).
  Proof.
    intros x Hx. assert (Hpos : Forall (fun x => 0 < x) ls) by apply Hv. unfold link_type, background. split.
    - destruct (existsb _ _) eqn:E.
      + split; [intros _|auto]. apply existsb_exists in E. destruct E as (d & Hd & E). apply zrange_In in Hd. fold ls in Hd, E.
        assert (Hd' : is_direction ls d) by (apply up_direction; lia).
        assert (Ho : is_direction ls (opp_dir (Z.of_nat (length ls)) d)) by (apply opp_dir_range; auto).
        apply orb_true_iff in E. destruct E as [E|E]; apply negb_true_iff, Z.eqb_neq in E.
        * exists (neighbour lat x d). split; auto. split; [apply nbr_site; auto|]. exists d. split; [lia|]. left. split; auto.
          apply (nbr_periodic ls Hpos d Hd'); auto.
        * exists (neighbour lat x (opp_dir (Z.of_nat (length ls)) d)). split; auto. split; [apply nbr_site; auto|].
          exists d. split; [lia|]. right. split; auto.
          apply (nbr_periodic ls Hpos d Hd'); [apply nbr_site; auto|].
          assert (F := nbr_opp_inverse ls (opp_dir (Z.of_nat (length ls)) d) x Hpos Ho Hx).
          replace (opp_dir (Z.of_nat (length ls)) (opp_dir (Z.of_nat (length ls)) d)) with d in F by (unfold opp_dir; lia). auto.
      + split; [discriminate|]. intros (y & _ & Hy & d & Hd & HH). exfalso.
        assert (Hd' : is_direction ls d) by (apply up_direction; lia).
        assert (F : existsb (fun d => negb (link d x =? 0) || negb (link d (neighbour lat x (opp_dir (Z.of_nat (length ls)) d)) =? 0)) (zrange 0 (length ls)) = true).
        { apply existsb_exists. exists d. split; [apply zrange_In; lia|]. apply orb_true_iff.
          destruct HH as [[_ Hl]|[Hp Hl]]; [left|right]; apply negb_true_iff, Z.eqb_neq; auto.
          apply (nbr_periodic ls Hpos d Hd') in Hp; auto. rewrite Hp. unfold neighbour.
          fold ls. rewrite nbr_opp_inverse; auto. }
        fold ls in E. congruence.
    - destruct (existsb _ _); auto.
  Qed.

  Lemma linked_sym : forall x y, linked ls link x y -> linked ls link y x.
  Proof. intros x y (Hx & Hy & d & Hd & H). split; auto. split; auto. exists d. tauto. Qed.

  Lemma periodic_back : forall x y d, is_site ls x -> is_site ls y -> is_direction ls d -> periodic_neighbour ls y d x ->
    periodic_neighbour ls x (opp_dir (Z.of_nat (length ls)) d) y.
  Proof.
    intros x y d Hx Hy Hd Hp. assert (Hpos : Forall (fun x => 0 < x) ls) by apply Hv.
    assert (Ho : is_direction ls (opp_dir (Z.of_nat (length ls)) d)) by (apply opp_dir_range; auto).
    apply (nbr_periodic ls Hpos d Hd) in Hp; auto. apply (nbr_periodic ls Hpos _ Ho); auto.
    rewrite Hp. symmetry. apply nbr_opp_inverse; auto.
  Qed.

  Lemma linked_step : forall x y, linked ls link x y -> step ls (link_type lat link) x y.
  Proof.
    intros x y H. assert (H' := linked_sym x y H). assert (HH := H). destruct H as (Hx & Hy & d & Hd & H).
    destruct (link_types x Hx) as [[_ Tx] _]. destruct (link_types y Hy) as [[_ Ty] _].
    rewrite <- (Ty (ex_intro _ x H')) in Tx. specialize (Ty (ex_intro _ x H')). specialize (Tx (ex_intro _ y HH)).
    split; auto. split; auto. split; [auto|]. split; [lia|].
    assert (Hd' : is_direction ls d) by (apply up_direction; lia).
    destruct H as [[Hp _]|[Hp _]]; [exists d; auto|]. exists (opp_dir (Z.of_nat (length ls)) d).
    split; [apply opp_dir_range; auto|]. apply periodic_back; auto.
  Qed.

  Lemma link_connected_connected : forall x y, link_connected ls link x y -> connected ls (link_type lat link) x y.
  Proof. induction 1; [constructor|]. eapply conn_step; [eauto|]. apply linked_step; auto. Qed.
End Links.
