(** C18: sums and products in site loops. *)
From Coq Require Import Permutation.
From Verif Require Import Common LayoutModel LayoutSpec LayoutProps IoModel IoSpec IoProofs1 IoProps.
From Verif Require Import ReduceModel ReduceSpec ReduceProofs1 ReduceProofs2.

(** What an entry of the reduction list computes: sum or product. *)
Definition op_of {V} (add mul : V -> V -> V) (v : rvar V) : V -> V -> V := if rv_prod v then mul else add.
Definition unit_of {V} (zero one : V) (v : rvar V) : V := if rv_prod v then one else zero.

(** Any number of reduction variables of any base types and sizes in one loop:
    afterwards each variable holds on every rank (on rank 0 only, for sums with
    allreduce switched off) its old rank-0 value combined with the contributions
    of all sites of the parity, each site once; other variables are untouched,
    and the message buffers are empty again. *)
Theorem C18_reductions : forall (V : Type) (add mul : V -> V -> V) (zero one : V),
  comm_monoid add zero -> comm_monoid mul one ->
  forall lat, valid_lattice lat ->
  forall (order : Z -> nat -> rtree), (forall k j, any_order lat (order k j)) ->
  forall p (vs : list (rvar V)), NoDup (map rv_name vs) ->
  forall allreduce bd bf var tmp, b_n bd = 0 -> b_n bf = 0 ->
  exists var' bd' bf', reduction_loop add mul zero one order lat p vs allreduce bd bf var tmp = Some (var', bd', bf', true) /\
    b_n bd' = 0 /\ b_n bf' = 0 /\
    (forall v, In v vs -> forall j, (j < rv_words v)%nat ->
     forall g sites, represents lat (fun r i => rv_g v r i j) g -> enumerates (l_size lat) p sites ->
     forall r, is_rank lat r -> allreduce = true \/ r = 0 \/ rv_prod v = true ->
       var' (rv_name v) r j = op_of add mul v (var (rv_name v) 0 j) (total (op_of add mul v) (unit_of zero one v) (map g sites))) /\
    (forall v j r, In v vs -> (rv_words v <= j)%nat -> var' (rv_name v) r j = var (rv_name v) r j) /\
    (forall k, ~ In k (map rv_name vs) -> var' k = var k).
Proof.
  intros V add mul zero one Ha Hm lat Hv order Ho p vs Hn allreduce bd bf var tmp Bd Bf.
  exact (reduction_loop_ok add mul zero one order lat Hv Ha Hm Ho p vs Hn allreduce bd bf var tmp Bd Bf).
Qed.
Print Assumptions C18_reductions.

(** Every lattice has such a list of its sites. *)
Lemma sites_enumerated : forall lat p, valid_lattice lat -> exists sites, enumerates (l_size lat) p sites.
Proof.
  intros lat p Hv. exists (flat_map (visited lat p) (zrange 0 (Z.to_nat (number_of_nodes lat)))). split.
  - apply NoDup_flat_map; [apply zrange_NoDup| |].
    + intros r Hr. apply (LayoutProofs2.loop_visits lat r p Hv). apply rank_range; auto.
    + intros r s c Hr Hs Hcr Hcs. apply rank_range in Hr. apply rank_range in Hs.
      apply (proj2 (LayoutProofs2.loop_visits lat r p Hv Hr)) in Hcr. apply (proj2 (LayoutProofs2.loop_visits lat s p Hv Hs)) in Hcs.
      destruct Hcr as [Hcr _]. destruct Hcs as [Hcs _].
      assert (Hc := LayoutProofs2.holds_is_site lat r c Hv Hr Hcr). destruct (LayoutProofs2.owner_unique lat c Hv Hc) as [_ O].
      rewrite (proj1 (O r Hr)), (proj1 (O s Hs)); auto.
  - intros c. rewrite in_flat_map. split.
    + intros (r & Hr & Hc). apply rank_range in Hr. apply (proj2 (LayoutProofs2.loop_visits lat r p Hv Hr)) in Hc.
      destruct Hc as [Hh Hp]. split; auto. apply (LayoutProofs2.holds_is_site lat r); auto.
    + intros [Hc Hp]. destruct (LayoutProofs2.owner_unique lat c Hv Hc) as [R O]. exists (node_rank lat c).
      split; [apply rank_range; auto|]. apply (proj2 (LayoutProofs2.loop_visits lat _ p Hv R)). split; auto. apply O; auto.
Qed.

(** Two divisions of the same lattice into ranks, with variables that add the same
    function of the site, give the same results. *)
Theorem C18_independent_of_the_division : forall (V : Type) (add mul : V -> V -> V) (zero one : V),
  comm_monoid add zero -> comm_monoid mul one ->
  forall lat1 lat2, valid_lattice lat1 -> valid_lattice lat2 -> l_size lat1 = l_size lat2 ->
  forall order1 order2, (forall k j, any_order lat1 (order1 k j)) -> (forall k j, any_order lat2 (order2 k j)) ->
  forall p (vs1 vs2 : list (rvar V)), NoDup (map rv_name vs1) -> NoDup (map rv_name vs2) ->
  forall bd1 bf1 bd2 bf2 var1 var2 tmp1 tmp2, b_n bd1 = 0 -> b_n bf1 = 0 -> b_n bd2 = 0 -> b_n bf2 = 0 ->
  exists o1 o2 bd1' bf1' bd2' bf2',
    reduction_loop add mul zero one order1 lat1 p vs1 true bd1 bf1 var1 tmp1 = Some (o1, bd1', bf1', true) /\
    reduction_loop add mul zero one order2 lat2 p vs2 true bd2 bf2 var2 tmp2 = Some (o2, bd2', bf2', true) /\
    forall v1 v2 j g, In v1 vs1 -> In v2 vs2 -> rv_name v1 = rv_name v2 -> rv_prod v1 = rv_prod v2 ->
      (j < rv_words v1)%nat -> (j < rv_words v2)%nat ->
      represents lat1 (fun r i => rv_g v1 r i j) g -> represents lat2 (fun r i => rv_g v2 r i j) g ->
      var1 (rv_name v1) 0 j = var2 (rv_name v1) 0 j ->
      forall r1 r2, is_rank lat1 r1 -> is_rank lat2 r2 -> o1 (rv_name v1) r1 j = o2 (rv_name v1) r2 j.
Proof.
  intros V add mul zero one Ha Hm lat1 lat2 H1 H2 Hs order1 order2 O1 O2 p vs1 vs2 N1 N2 bd1 bf1 bd2 bf2 var1 var2 tmp1 tmp2 B1 B2 B3 B4.
  destruct (C18_reductions V add mul zero one Ha Hm lat1 H1 order1 O1 p vs1 N1 true bd1 bf1 var1 tmp1 B1 B2) as (o1 & x1 & y1 & E1 & _ & _ & R1 & _).
  destruct (C18_reductions V add mul zero one Ha Hm lat2 H2 order2 O2 p vs2 N2 true bd2 bf2 var2 tmp2 B3 B4) as (o2 & x2 & y2 & E2 & _ & _ & R2 & _).
  exists o1, o2, x1, y1, x2, y2. split; auto. split; auto.
  intros v1 v2 j g I1 I2 En Ep J1 J2 G1 G2 Ev r1 r2 Hr1 Hr2. destruct (sites_enumerated lat1 p H1) as (sites & Hsites).
  rewrite (R1 v1 I1 j J1 g sites G1 Hsites r1 Hr1) by auto. rewrite En.
  rewrite (R2 v2 I2 j J2 g sites G2) by (auto; rewrite <- Hs; auto).
  unfold op_of, unit_of. rewrite Ep, <- En, Ev. auto.
Qed.
Print Assumptions C18_independent_of_the_division.

(** Three variables in one loop on the 5 x 4 lattice with 6 ranks: a "double" of two
    words, a "float" and an integer product. *)
Fixpoint left_tree (r : Z) (l : list Z) : rtree :=
  match l with
  | [] => RLeaf r
  | x :: l' => RNode (left_tree x l') (RLeaf r)
  end.

Lemma left_tree_leaves : forall l r, Permutation (leaves (left_tree r l)) (r :: l).
Proof.
  induction l as [|x l IH]; intros r; cbn [left_tree leaves]; auto.
  rewrite (IH x). apply Permutation_sym. apply Permutation_cons_append.
Qed.

Definition ex_order (lat : lattice) : rtree := left_tree 0 (zrange 1 (Z.to_nat (number_of_nodes lat) - 1)).

Definition ex_vars (lat : lattice) : list (rvar Z) :=
  [mkRvar 11 KDouble false 2 (fun r i j => ex_store lat r i + Z.of_nat j);
   mkRvar 12 KFloat false 1 (fun r i j => 1);
   mkRvar 13 KOther true 1 (fun r i j => if ex_store lat r i =? 0 then 5 else 1);
   mkRvar 14 KOther false 1 (fun r i j => ex_store lat r i)].

Example C18_example :
  valid_lattice ex_lat /\ comm_monoid Z.add 0 /\ comm_monoid Z.mul 1 /\ any_order ex_lat (ex_order ex_lat) /\
  NoDup (map rv_name (ex_vars ex_lat)) /\
  represents ex_lat (fun r i => rv_g (nth 0 (ex_vars ex_lat) (mkRvar 0 KOther false 0 (fun _ _ _ => 0))) r i 1%nat) (fun c => ex_field c + 1) /\
  match reduction_loop Z.add Z.mul 0 1 (fun _ _ => ex_order ex_lat) ex_lat EVEN (ex_vars ex_lat) true
     (mkRbuf 0 (fun _ _ => 77) (fun _ => (0, 0%nat)) 0) (mkRbuf 0 (fun _ _ => 78) (fun _ => (0, 0%nat)) 0)
     (fun k r j => 100 * k + r) (fun _ _ _ => 79) with
  | Some (o, _, _, _) => [o 12 0 0%nat; o 12 5 0%nat; o 13 3 0%nat; o 11 2 1%nat - o 11 2 0%nat; o 12 4 1%nat; o 15 3 0%nat]
  | None => []
  end = [1210; 1210; 6500; 10; 1204; 1503].
Proof.
  split; [exact ex_lat_valid|].
  split; [split; [intros; lia|]; split; intros; lia|]. split; [split; [intros; lia|]; split; intros; lia|].
  split. { unfold any_order, ex_order. rewrite left_tree_leaves. apply Permutation_refl. }
  split. { repeat constructor; cbn; intuition lia. }
  split. { intros r c Hr Hc. cbn [nth ex_vars rv_g]. rewrite (ex_store_field _ ex_lat_valid r c Hr Hc). auto. }
  vm_compute. reflexivity.
Qed.
