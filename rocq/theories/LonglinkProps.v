(** C89: blocking of a gauge field. *)
From Verif Require Import Common GaugeModel GaugeSpec GaugeProofs1 ForceModel ForceSpec.
From Verif Require Import LayoutModel LayoutSpec LayoutProofs1 LayoutProofs2 LayoutProps BlockModel BlockSpec BlockProofs1 BlockProps.
From Verif Require Import LonglinkModel LonglinkSpec LonglinkProofs1 LonglinkProofs2.

(** After [block_gauge] the blocked lattice holds the long links of the parent,
    on all ranks. *)
Theorem C89_block_gauge : forall (M : matrices) lat bf, matrix_laws M -> valid_lattice lat ->
  blocking (l_size lat) bf -> Forall (fun b => b <= 2) bf ->
  forall (U : gauge M) (parent old : nat -> Z -> Z -> mat M),
  (forall d, (d < length (l_size lat))%nat -> represents lat (parent d) (U d)) ->
  exists new : nat -> Z -> Z -> mat M,
    (forall r, is_rank lat r -> exists m,
       block_gauge (mul M) lat (blocked lat bf) r parent (fun d => old d r) = Some m /\
       forall d, m d = new d r) /\
    forall d, (d < length (l_size lat))%nat ->
      represents (blocked lat bf) (new d) (long_link M (l_size lat) bf U d).
Proof.
  intros M lat bf ML Hv Hb H2 U parent old HU.
  exists (fun d r => match block_gauge (mul M) lat (blocked lat bf) r parent (fun d => old d r) with
                     | Some m => m d | None => old d r end).
  assert (Hok : forall r, is_rank lat r -> exists m,
    block_gauge (mul M) lat (blocked lat bf) r parent (fun d => old d r) = Some m /\
    forall d x, (d < length (l_size lat))%nat -> holds (blocked lat bf) r x ->
      m d (site_index (nodeinfo (blocked lat bf) r) x) = long_link M (l_size lat) bf U d x).
  { intros r Hr. unfold block_gauge. rewrite factors_checked by auto. rewrite (recovered lat bf Hv Hb).
    destruct (directions_ok M ML lat bf Hv Hb H2 U parent r Hr HU (seq 0 (length (l_size lat)))
                (fun d => old d r)) as (m & E & Hm & _).
    - intros d Hd. apply in_seq in Hd. lia.
    - apply seq_NoDup.
    - exists m. split; auto. intros d x Hd. apply Hm. apply in_seq. lia. }
  split.
  - intros r Hr. destruct (Hok r Hr) as (m & E & _). exists m. rewrite E. auto.
  - intros d Hd r x Hr Hx. apply (proj1 (blocked_rank lat bf r)) in Hr. destruct (Hok r Hr) as (m & E & Hm). rewrite E. auto.
Qed.
Print Assumptions C89_block_gauge.

(** The same for [block_gauge_to_current_lattice], which replaces the field; on
    the same lattice it does nothing. *)
Theorem C89_in_place : forall (M : matrices) lat bf, matrix_laws M -> valid_lattice lat ->
  blocking (l_size lat) bf -> Forall (fun b => b <= 2) bf ->
  forall (U : gauge M) (this fresh : nat -> Z -> Z -> mat M),
  (forall d, (d < length (l_size lat))%nat -> represents lat (this d) (U d)) ->
  (exists new : nat -> Z -> Z -> mat M,
    (forall r, is_rank lat r -> exists m,
       block_gauge_to_current_lattice (mul M) false lat (blocked lat bf) r this (fun d => fresh d r) = Some m /\
       forall d, m d = new d r) /\
    forall d, (d < length (l_size lat))%nat ->
      represents (blocked lat bf) (new d) (long_link M (l_size lat) bf U d)) /\
  forall r, block_gauge_to_current_lattice (mul M) true lat lat r this (fun d => fresh d r)
    = Some (fun d => this d r).
Proof.
  intros M lat bf ML Hv Hb H2 U this fresh HU. split; [|reflexivity].
  pose (f r := block_gauge_to_current_lattice (mul M) false lat (blocked lat bf) r this (fun d => fresh d r)).
  exists (fun d r => match f r with Some m => m d | None => this d r end).
  assert (Hok : forall r, is_rank lat r -> exists m, f r = Some m /\
    forall d x, (d < length (l_size lat))%nat -> holds (blocked lat bf) r x ->
      m d (site_index (nodeinfo (blocked lat bf) r) x) = long_link M (l_size lat) bf U d x).
  { intros r Hr. unfold f, block_gauge_to_current_lattice. rewrite factors_checked by auto.
    rewrite (recovered lat bf Hv Hb).
    destruct (here_ok M ML lat bf Hv Hb H2 U this (fun d => fresh d r) r Hr HU (seq 0 (length (l_size lat)))
                (fun d => this d r)) as (m & E & Hm & _).
    - intros d Hd. apply in_seq in Hd. lia.
    - apply seq_NoDup.
    - exists m. split; auto. intros d x Hd. apply Hm. apply in_seq. lia. }
  split.
  - intros r Hr. destruct (Hok r Hr) as (m & E & _). exists m. fold (f r). rewrite E. auto.
  - intros d Hd r x Hr Hx. apply (proj1 (blocked_rank lat bf r)) in Hr. destruct (Hok r Hr) as (m & E & Hm). rewrite E. auto.
Qed.
Print Assumptions C89_in_place.

(** A blocking factor above two stops the program. *)
Theorem C89_large_factor : forall (M : matrices) lat bf, valid_lattice lat ->
  blocking (l_size lat) bf -> Exists (fun b => 2 < b) bf ->
  forall r (parent : nat -> Z -> Z -> mat M) mem,
  block_gauge (mul M) lat (blocked lat bf) r parent mem = None /\
  block_gauge_to_current_lattice (mul M) false lat (blocked lat bf) r parent mem = None.
Proof.
  intros M lat bf Hv Hb H r parent mem. unfold block_gauge, block_gauge_to_current_lattice.
  rewrite (recovered lat bf Hv Hb). replace (forallb (fun b => b <=? 2) bf) with false; auto.
  symmetry. apply not_true_iff_false. intros E. rewrite forallb_forall in E. apply Exists_exists in H.
  destruct H as (b & Hi & Hlt). specialize (E b Hi). apply Z.leb_le in E. lia.
Qed.
Print Assumptions C89_large_factor.

(** The product of long links along any path is the product of the links of the
    parent along the same path with every step repeated; the paths end at the
    same site.  In particular Wilson loops of the blocked lattice are Wilson
    loops of the parent. *)
Theorem C89_paths : forall (M : matrices) L bf (U : gauge M), matrix_laws M -> sizes L -> blocking L bf ->
  forall path x, on_lattice (element_div L bf) x ->
  path_line (element_div L bf) (long_link M L bf U) path x = path_line L U (long_path bf path) (times bf x) /\
  path_end L (long_path bf path) (times bf x) = times bf (path_end (element_div L bf) path x).
Proof. intros. split; [apply long_lines|apply long_path_end]; auto. Qed.
Print Assumptions C89_paths.

(** A gauge transformation of the parent is one of the blocked field. *)
Theorem C89_covariant : forall (M : matrices) L bf (U : gauge M) (g : site -> mat M), matrix_laws M -> sizes L ->
  blocking L bf -> (forall x, on_lattice L x -> unitary M (g x)) ->
  forall d x, on_lattice (element_div L bf) x ->
  long_link M L bf (transform M L g U) d x
  = transform M (element_div L bf) (fun y => g (times bf y)) (long_link M L bf U) d x.
Proof. intros. apply long_transform; auto. Qed.
Print Assumptions C89_covariant.

(** 8 x 8 sites on two ranks, blocked by 2 x 1; any gauge field is held by some
    memory.  The second part is the plaquette of the blocked lattice. *)
Example C89_example : forall (M : matrices) (U : gauge M),
  valid_lattice lat88 /\ blocking (l_size lat88) [2; 1] /\ Forall (fun b => b <= 2) [2; 1] /\
  (exists parent : nat -> Z -> Z -> mat M, forall d, represents lat88 (parent d) (U d)) /\
  long_path [2; 1] [Up 0; Up 1; Down 0; Down 1] = [Up 0; Up 0; Up 1; Down 0; Down 0; Down 1].
Proof.
  intros M U. assert (Hv : valid_lattice lat88) by
    (apply C03_trivial_layout_is_valid; try reflexivity; repeat constructor).
  split; auto. split; [|split; [|split; [|reflexivity]]].
  - repeat constructor; try lia; [exists 4|exists 8]; reflexivity.
  - repeat constructor; lia.
  - exists (fun d r i => U d (coordinates (nodeinfo lat88 r) i)). intros d r c Hr Hc.
    destruct (coordinates_inverse lat88 r Hv Hr) as [E _]. rewrite E; auto.
Qed.
