(** C98: running site indices. *)
From Coq Require Import ZArith List Lia.
From Verif Require Import SiteindexModel SiteindexSpec SiteindexProofs1.
Import ListNotations.
Local Open Scope Z_scope.

(** The index of a site is x + nx (y + ny ..), less than the volume, and gives the
    site back. *)
Theorem C98_site : forall sizes x, valid_sizes sizes -> valid_site sizes x ->
  from_coordinates sizes x = running_index sizes x /\
  0 <= from_coordinates sizes x < volume sizes /\
  coordinates sizes (from_coordinates sizes x) = Some x.
Proof.
  intros sizes x Hs Hx. rewrite (from_ok _ _ Hs Hx).
  split; [reflexivity|]. split; [exact (index_range _ _ Hx)|].
  exact (loop_index _ _ (proj1 Hs) Hx).
Qed.
Print Assumptions C98_site.

(** Every number less than the volume is the index of the site that it gives. *)
Theorem C98_index : forall sizes v, valid_sizes sizes -> 0 <= v < volume sizes ->
  exists x, coordinates sizes v = Some x /\ valid_site sizes x /\ from_coordinates sizes x = v.
Proof.
  intros sizes v Hs Hv. destruct (loop_value sizes v (proj1 Hs) Hv) as (x & E & S & I).
  exists x. rewrite (from_ok _ _ Hs S). auto.
Qed.
Print Assumptions C98_index.

(** Different sites have different indices. *)
Theorem C98_injective : forall sizes x y, valid_sizes sizes -> valid_site sizes x -> valid_site sizes y ->
  from_coordinates sizes x = from_coordinates sizes y -> x = y.
Proof.
  intros sizes x y Hs Hx Hy E.
  pose proof (proj2 (proj2 (C98_site _ _ Hs Hx))) as Ex.
  pose proof (proj2 (proj2 (C98_site _ _ Hs Hy))) as Ey.
  rewrite E, Ey in Ex. injection Ex as ->. reflexivity.
Qed.
Print Assumptions C98_injective.

(** The volume must fit into a size_t: with a larger one, two sites share an index. *)
Theorem C98_volume_needed : exists sizes x y, Forall (fun n => 0 < n < 2 ^ 31) sizes /\
  valid_site sizes x /\ valid_site sizes y /\ x <> y /\ from_coordinates sizes x = from_coordinates sizes y.
Proof.
  exists [2 ^ 30; 2 ^ 30; 2 ^ 30], [0; 0; 0], [0; 0; 16].
  split; [repeat constructor; lia|]. split; [repeat constructor; lia|]. split; [repeat constructor; lia|].
  split; [discriminate|reflexivity].
Qed.
Print Assumptions C98_volume_needed.

Example C98_example : valid_sizes [4; 6; 8; 10] /\ valid_site [4; 6; 8; 10] [3; 5; 2; 7] /\
  from_coordinates [4; 6; 8; 10] [3; 5; 2; 7] = 1415 /\ 0 <= 1415 < volume [4; 6; 8; 10] /\
  coordinates [4; 6; 8; 10] 1415 = Some [3; 5; 2; 7].
Proof.
  split; [split; [repeat constructor; lia|reflexivity]|]. split; [repeat constructor; lia|].
  split; [reflexivity|]. split; [split; [discriminate|reflexivity]|reflexivity].
Qed.
