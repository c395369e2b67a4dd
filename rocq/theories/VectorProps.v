(** C35: vectorised field storage.  [get_element] reads a site, so [holds_field] fixes every
    component of every site of the allocation, halo included. *)
From Verif Require Import Common VectorModel VectorSpec VectorProofs1 VectorProofs2.
Open Scope Z_scope.

(** A newly allocated array can be read at every site of the allocation. *)
Theorem C35_allocated : forall (V : Type) (vs E sites : Z) (init : Z -> V),
  room_for vs E sites -> exists f, holds_field vs E sites (allocate_field E sites init) f.
Proof.
  intros V vs E sites init H. exists (fun i e => init (addr vs E i e)). apply (proj2 (holds_load vs E sites H _ _)).
  intros i e Hi He. unfold load, allocate_field. cbn [s_len s_at]. pose proof (addr_range vs E sites i e H Hi He) as A.
  replace (0 <=? addr vs E i e) with true by (symmetry; apply Z.leb_le; lia).
  replace (addr vs E i e <? sites * E) with true by (symmetry; apply Z.ltb_lt; lia). reflexivity.
Qed.
Print Assumptions C35_allocated.

(** No two (site, component) pairs share a place, and together they fill the array. *)
Theorem C35_places : forall (vs E sites : Z), room_for vs E sites ->
  forall p, 0 <= p < sites * E <->
    exists i e, 0 <= i < sites /\ 0 <= e < E /\ nth_error (site_places vs E i) (Z.to_nat e) = Some p /\
                forall i' e', 0 <= i' -> 0 <= e' < E -> nth_error (site_places vs E i') (Z.to_nat e') = Some p -> i' = i /\ e' = e.
Proof.
  intros vs E sites H p.
  assert (N : forall i e, 0 <= e < E -> nth_error (site_places vs E i) (Z.to_nat e) = Some (addr vs E i e)).
  { intros i e He. unfold site_places. apply map_nth_error with (d := e).
    rewrite (nth_error_nth' _ 0) by (rewrite zrange_length; lia). rewrite zrange_nth by lia. f_equal. lia. }
  split.
  - intros Hp. destruct (addr_onto vs E sites p H Hp) as [i [e [Hi [He Ha]]]]. exists i, e. split; [exact Hi|]. split; [exact He|].
    split; [rewrite N by exact He; congruence|]. intros i' e' Hi' He' Hn. rewrite N in Hn by exact He'. injection Hn as Hn.
    apply (addr_inj vs E); try assumption; [apply H|congruence].
  - intros [i [e [Hi [He [Hn _]]]]]. rewrite N in Hn by exact He. injection Hn as <-. apply (addr_range vs E sites i e H Hi He).
Qed.
Print Assumptions C35_places.

(** Writing a site gives it the value written and leaves the others. *)
Theorem C35_set_element : forall (V : Type) (vs E sites : Z) (m : storage V) (f : Z -> Z -> V) (i : Z) (v : Z -> V),
  room_for vs E sites -> holds_field vs E sites m f -> 0 <= i < sites ->
  exists m', set_element vs E m i (map v (zrange 0 (Z.to_nat E))) = Some m' /\
             holds_field vs E sites m' (with_site f i v).
Proof. intros. apply set_element_holds; assumption. Qed.
Print Assumptions C35_set_element.

(** A vector read has, in lane k, the site i * vs + k. *)
Theorem C35_get_vector : forall (V : Type) (vs E sites : Z) (m : storage V) (f : Z -> Z -> V) (i : Z),
  room_for vs E sites -> holds_field vs E sites m f -> 0 <= i < sites / vs ->
  get_vector vs E m i = Some (rows vs E (fun k => f (i * vs + k))).
Proof. intros V vs E sites m f i H Hm Hi. exact (get_vector_holds vs E sites H m f i Hm Hi). Qed.
Print Assumptions C35_get_vector.

Theorem C35_set_vector : forall (V : Type) (vs E sites : Z) (m : storage V) (f : Z -> Z -> V) (i : Z) (v : Z -> Z -> V),
  room_for vs E sites -> holds_field vs E sites m f -> 0 <= i < sites / vs ->
  exists m', set_vector vs E m i (rows vs E v) = Some m' /\ holds_field vs E sites m' (with_vector vs f i v).
Proof. intros. apply set_vector_holds; assumption. Qed.
Print Assumptions C35_set_vector.

(** Lists of sites, in order. *)
Theorem C35_gather : forall (V : Type) (vs E sites : Z) (m : storage V) (f : Z -> Z -> V) (l : list Z),
  room_for vs E sites -> holds_field vs E sites m f -> Forall (fun i => 0 <= i < sites) l ->
  gather_elements vs E m l = Some (map (fun i => map (f i) (zrange 0 (Z.to_nat E))) l).
Proof. intros V vs E sites m f l H Hm Hl. apply (gather_holds vs E sites m f l Hm Hl). Qed.
Print Assumptions C35_gather.

Theorem C35_place : forall (V : Type) (vs E sites : Z) (m : storage V) (f : Z -> Z -> V) (l : list Z) (b : list (Z -> V)),
  room_for vs E sites -> holds_field vs E sites m f -> Forall (fun i => 0 <= i < sites) l -> length b = length l ->
  exists m', place_elements vs E m (map (fun v => map v (zrange 0 (Z.to_nat E))) b) l = Some m' /\
             holds_field vs E sites m' (fold_left (fun g iv => with_site g (fst iv) (snd iv)) (combine l b) f).
Proof. intros V vs E sites m f l b H Hm Hl Hb. apply (place_holds vs E sites H l b m f Hm Hl Hb). Qed.
Print Assumptions C35_place.

(** A vector sent whole, in memory order, and received in place as vector j of another array
    arrives lane by lane. *)
Theorem C35_whole_vectors : forall (V : Type) (vs E sites sites2 : Z) (m m2 : storage V) (f f2 : Z -> Z -> V) (i j : Z),
  room_for vs E sites -> room_for vs E sites2 -> holds_field vs E sites m f -> holds_field vs E sites2 m2 f2 ->
  0 <= i < sites / vs -> 0 <= j < sites2 / vs ->
  exists data m2', raw_vector vs E m (i * vs) = Some data /\
    store_all m2 (combine (zrange (j * vs * E) (Z.to_nat (vs * E))) data) = Some m2' /\
    holds_field vs E sites2 m2' (with_vector vs f2 j (fun k => f (i * vs + k))).
Proof.
  intros V vs E sites sites2 m m2 f f2 i j H H2 Hm Hm2 Hi Hj.
  destruct (raw_place vs E sites2 H2 m2 f2 j (fun k => f (i * vs + k)) Hm2 Hj) as [m2' [A B]].
  eexists. exists m2'. split; [apply (raw_holds vs E sites H m f i Hm Hi)|]. split; [exact A|exact B].
Qed.
Print Assumptions C35_whole_vectors.

(** Filling the halo vectors of one direction from vectors of this node: each takes the lanes
    of its source vector as the permutation says, and nothing else changes. *)
Theorem C35_halo : forall (V : Type) (vs E sites : Z) (m : storage V) (f : Z -> Z -> V)
                          (neg : V -> V) (perm : Z -> Z) (offset start : Z) (halo_index : list Z),
  room_for vs E sites -> holds_field vs E sites m f -> is_permutation vs perm ->
  Forall (fun s => 0 <= s < start + offset) halo_index ->
  0 <= start + offset -> start + offset + Z.of_nat (length halo_index) <= sites / vs ->
  exists m', copy_halo vs E neg perm offset m start halo_index = Some m' /\
             holds_field vs E sites m' (with_halo vs neg perm (start + offset) halo_index f).
Proof.
  intros V vs E sites m f neg perm offset start l H Hm Hp Hl H0 Hr.
  apply copy_halo_holds; try assumption. intros s Hs. exact (proj1 (Forall_forall _ _) Hl s Hs).
Qed.
Print Assumptions C35_halo.

(** The same site in vectors of n and of 2 n lanes (double and float elements). *)
Theorem C35_double_and_float : forall n i, 0 < n -> 0 <= i ->
  i / (2 * n) = i / n / 2 /\ i mod (2 * n) = i mod n + (i / n) mod 2 * n.
Proof.
  intros n i Hn Hi. split.
  - rewrite Z.div_div by lia. f_equal. lia.
  - rewrite (Z.mul_comm 2 n), Z.rem_mul_r by lia. lia.
Qed.
Print Assumptions C35_double_and_float.

(** Vectors of 4 lanes, 3 components, 8 sites and two halo vectors. *)
Definition ex_store : storage Z := allocate_field 3 16 (fun p => 100 + p).

Example C35_example : room_for 4 3 16 /\
  get_element 4 3 ex_store 5 = Some [113; 117; 121] /\
  match set_element 4 3 ex_store 5 [7; 8; 9] with
  | Some m => get_element 4 3 m 5 = Some [7; 8; 9] /\ get_element 4 3 m 4 = get_element 4 3 ex_store 4 /\
              get_vector 4 3 m 1 = Some [[112; 7; 114; 115]; [116; 8; 118; 119]; [120; 9; 122; 123]] /\
              set_element 4 3 m 16 [0; 0; 0] = None /\
              match copy_halo 4 3 (fun x => x) (fun k => (k + 1) mod 4) 2 m 0 [1; 0] with
              | Some m2 => get_element 4 3 m2 8 = Some [7; 8; 9] /\ get_element 4 3 m2 15 = get_element 4 3 m 0 /\
                           get_element 4 3 m2 5 = Some [7; 8; 9]
              | None => False
              end
  | None => False
  end.
Proof. split; [repeat split; lia|]. vm_compute. repeat split; reflexivity. Qed.
