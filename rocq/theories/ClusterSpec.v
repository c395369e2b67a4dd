(** Specification of clusters. *)
From Coq Require Import Sorted.
From Verif Require Import Common LayoutModel LayoutSpec ReduceSpec SelectModel ClusterModel.

(** One step over nearest neighbours of the same type, not the background 255. *)
Definition step (ls : list Z) (type : list Z -> Z) (x y : list Z) : Prop :=
  is_site ls x /\ is_site ls y /\ type x = type y /\ type x <> 255 /\
  exists d, is_direction ls d /\ periodic_neighbour ls x d y.

(** Connected through such steps. *)
Inductive connected (ls : list Z) (type : list Z -> Z) (x : list Z) : list Z -> Prop :=
| conn_refl : connected ls type x x
| conn_step : forall y z, connected ls type x y -> step ls type y z -> connected ls type x z.

(** The labels: type and number of the site. *)
Definition label_value (ls x : list Z) (t : Z) : Z := t * 2 ^ 54 + SiteIndex ls x.
Definition background_label : Z := 255 * 2 ^ 54.

(** The site of its cluster with the smallest number. *)
Definition first_site (ls : list Z) (type : list Z -> Z) (x y : list Z) : Prop :=
  connected ls type x y /\ forall z, connected ls type x z -> SiteIndex ls y <= SiteIndex ls z.

Definition correct_labels (ls : list Z) (type : list Z -> Z) (labels : list Z -> Z) : Prop :=
  forall x, is_site ls x ->
    (type x = 255 -> labels x = background_label) /\
    (type x <> 255 -> exists y, first_site ls type x y /\ labels x = label_value ls y (type x)).

(** Every round visits every even and every odd site once. *)
Definition complete_round (ls : list Z) (rd : round) : Prop :=
  enumerates ls EVEN (even_order rd) /\ enumerates ls ODD (odd_order rd).

(** A list of clusters for a list of labels: sorted, and (label, n) is in it when
    the label (not of the background) occurs n > 0 times. *)
Definition cluster_list (labels : list Z) (res : list (Z * Z)) : Prop :=
  StronglySorted (fun a b => fst a < fst b) res /\
  forall l n, In (l, n) res <->
    In l labels /\ l <> background_label /\ n = Z.of_nat (count_occ Z.eq_dec labels l).

(** Labels the code makes. *)
Definition valid_label (l : Z) : Prop :=
  l = background_label \/ exists t i, 0 <= t < 255 /\ 0 <= i < 2 ^ 54 /\ l = t * 2 ^ 54 + i.

(** The surface of a cluster: links (x, x + d), d pointing up, with exactly one
    end in the cluster.  [inside] tells which sites belong to it. *)
Definition surface_links (lat : lattice) (inside : list Z -> bool) (sites : list (list Z)) : list (list Z * Z) :=
  filter (fun xd => xorb (inside (fst xd)) (inside (neighbour lat (fst xd) (snd xd))))
         (list_prod sites (zrange 0 (length (l_size lat)))).

(** Sites connected by links: link[d][x] <> 0 connects x and x + d. *)
Definition linked (ls : list Z) (link : Z -> list Z -> Z) (x y : list Z) : Prop :=
  is_site ls x /\ is_site ls y /\ exists d, 0 <= d < Z.of_nat (length ls) /\
    ((periodic_neighbour ls x d y /\ link d x <> 0) \/ (periodic_neighbour ls y d x /\ link d y <> 0)).

Inductive link_connected (ls : list Z) (link : Z -> list Z -> Z) (x : list Z) : list Z -> Prop :=
| lc_refl : link_connected ls link x x
| lc_step : forall y z, link_connected ls link x y -> linked ls link y z -> link_connected ls link x z.
