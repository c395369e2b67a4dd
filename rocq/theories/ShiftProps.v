(** C17: shifting a field by an arbitrary vector. *)
From Verif Require Import Common LayoutModel LayoutSpec LayoutProofs1 LayoutProofs2 LayoutProofs4 LayoutProofs5 LayoutProofs6 LayoutProps.
From Verif Require Import GatherModel ElementProps IoModel IoSpec IoProps ShiftModel ShiftSpec ShiftProofs1.

(** [f.shift(v)] on all sites: whatever was gathered before ([ready]), whatever
    the result field and the work field held, the result holds F (X + v). *)
Theorem C17_shift_all : forall (V : Type) lat, valid_lattice lat ->
  forall (ready : parity -> Z -> bool) (f res work : rank_store V) F v,
  represents lat f F -> length v = length (l_size lat) ->
  exists out, shift lat ready f v ALL res work = Some out /\
    represents lat out (fun X => F (translate (l_size lat) X v)).
Proof.
  intros V lat Hv ready f res work F v HF Hl.
  destruct (shift_ok V lat Hv ready f res work F v ALL HF Hl (or_introl eq_refl)) as (out & A & B & _).
  exists out. split; auto. intros r c Hr Hc. apply B; auto. exact I.
Qed.
Print Assumptions C17_shift_all.

(** Shifting the sites of one parity, on a lattice whose sizes are all even: those
    sites get F (X + v) and the others keep what the result field held. *)
Theorem C17_shift_of_one_parity : forall (V : Type) lat, valid_lattice lat ->
  Forall (fun s => Z.even s = true) (l_size lat) ->
  forall (ready : parity -> Z -> bool) (f res work : rank_store V) F G v p,
  represents lat f F -> represents lat res G -> length v = length (l_size lat) ->
  exists out, shift lat ready f v p res work = Some out /\
    forall r X, is_rank lat r -> holds lat r X ->
      (has_parity p X -> out r (site_index (nodeinfo lat r) X) = F (translate (l_size lat) X v)) /\
      (~ has_parity p X -> out r (site_index (nodeinfo lat r) X) = G X).
Proof.
  intros V lat Hv He ready f res work F G v p HF HG Hl.
  destruct (shift_ok V lat Hv ready f res work F v p HF Hl (or_intror He)) as (out & A & B & C).
  exists out. split; auto. intros r c Hr Hc. split; intros Hp; [apply B; auto|].
  rewrite C by auto. apply HG; auto.
Qed.
Print Assumptions C17_shift_of_one_parity.

Lemma nth_add_vec : forall v w j, length v = length w -> nth j (add_vec v w) 0 = nth j v 0 + nth j w 0.
Proof.
  induction v as [|a v IH]; intros [|b w] j H; try discriminate; destruct j; cbn; auto. apply IH. cbn in H. lia.
Qed.

Lemma nth_neg_vec : forall v j, nth j (neg_vec v) 0 = - nth j v 0.
Proof. intros. change 0 with (- 0) at 1. unfold neg_vec. apply map_nth. Qed.

Lemma add_vec_length : forall v w, length v = length w -> length (add_vec v w) = length v.
Proof. intros. unfold add_vec. rewrite map_length, combine_length. lia. Qed.

(** Shifting by v and then by w is shifting by v + w. *)
Theorem C17_shifts_compose : forall (V : Type) lat, valid_lattice lat ->
  forall ready1 ready2 ready3 (f a1 b1 a2 b2 a3 b3 : rank_store V) v w,
  length v = length (l_size lat) -> length w = length (l_size lat) ->
  exists g h k,
    shift lat ready1 f v ALL a1 b1 = Some g /\ shift lat ready2 g w ALL a2 b2 = Some h /\
    shift lat ready3 f (add_vec v w) ALL a3 b3 = Some k /\
    forall r X, is_rank lat r -> holds lat r X ->
      h r (site_index (nodeinfo lat r) X) = k r (site_index (nodeinfo lat r) X).
Proof.
  intros V lat Hv q1 q2 q3 f a1 b1 a2 b2 a3 b3 v w Lv Lw. assert (HF := some_field V lat f Hv).
  destruct (C17_shift_all V lat Hv q1 f a1 b1 _ v HF Lv) as (g & G1 & G2).
  destruct (C17_shift_all V lat Hv q2 g a2 b2 _ w G2 Lw) as (h & H1 & H2).
  destruct (C17_shift_all V lat Hv q3 f a3 b3 _ (add_vec v w) HF) as (k & K1 & K2).
  { rewrite add_vec_length; lia. }
  exists g, h, k. split; auto. split; auto. split; auto. intros r X Hr Hc. rewrite (H2 r X), (K2 r X) by auto.
  change (translate (l_size lat) X w) with (tr lat X (fun j => nth j w 0)).
  change (translate (l_size lat) (tr lat X (fun j => nth j w 0)) v) with (tr lat (tr lat X (fun j => nth j w 0)) (fun j => nth j v 0)).
  change (translate (l_size lat) X (add_vec v w)) with (tr lat X (fun j => nth j (add_vec v w) 0)).
  rewrite tr_tr by auto.
  rewrite (tr_ext lat X (fun j => nth j w 0 + nth j v 0) (fun j => nth j (add_vec v w) 0)); auto.
  intros j _. rewrite nth_add_vec by lia. lia.
Qed.
Print Assumptions C17_shifts_compose.

(** Shifting by v and then by -v restores the field. *)
Theorem C17_shift_back : forall (V : Type) lat, valid_lattice lat ->
  forall ready1 ready2 (f a1 b1 a2 b2 : rank_store V) v, length v = length (l_size lat) ->
  exists g h,
    shift lat ready1 f v ALL a1 b1 = Some g /\ shift lat ready2 g (neg_vec v) ALL a2 b2 = Some h /\
    forall r X, is_rank lat r -> holds lat r X ->
      h r (site_index (nodeinfo lat r) X) = f r (site_index (nodeinfo lat r) X).
Proof.
  intros V lat Hv q1 q2 f a1 b1 a2 b2 v Lv. assert (HF := some_field V lat f Hv).
  destruct (C17_shift_all V lat Hv q1 f a1 b1 _ v HF Lv) as (g & G1 & G2).
  destruct (C17_shift_all V lat Hv q2 g a2 b2 _ (neg_vec v) G2) as (h & H1 & H2).
  { unfold neg_vec. rewrite map_length. auto. }
  exists g, h. split; auto. split; auto. intros r X Hr Hc. rewrite (H2 r X), (HF r X) by auto.
  change (translate (l_size lat) X (neg_vec v)) with (tr lat X (fun j => nth j (neg_vec v) 0)).
  change (translate (l_size lat) (tr lat X (fun j => nth j (neg_vec v) 0)) v)
    with (tr lat (tr lat X (fun j => nth j (neg_vec v) 0)) (fun j => nth j v 0)).
  rewrite tr_tr by auto. rewrite tr_zero; auto.
  - apply (holds_is_site lat r); auto.
  - intros j _. rewrite nth_neg_vec. lia.
Qed.
Print Assumptions C17_shift_back.

(** With an odd lattice size a shift of one parity reads sites of the work field
    that were never written: the result depends on the uninitialised memory. *)
Theorem C17_one_parity_on_odd_lattice_refuted :
  exists lat (f res work work' : rank_store Z) v X out out',
    valid_lattice lat /\ length v = length (l_size lat) /\ holds lat 0 X /\ has_parity EVEN X /\
    shift lat (fun _ _ => false) f v EVEN res work = Some out /\
    shift lat (fun _ _ => false) f v EVEN res work' = Some out' /\
    out 0 (site_index (nodeinfo lat 0) X) <> out' 0 (site_index (nodeinfo lat 0) X).
Proof.
  exists ex_lat1, (fun _ i => i), (fun _ _ => 100), (fun _ _ => 200), (fun _ _ => 300), [2; 0], [4; 0],
    (match shift ex_lat1 (fun _ _ => false) (fun _ i => i) [2; 0] EVEN (fun _ _ => 100) (fun _ _ => 200) with Some o => o | None => fun _ _ => 0 end),
    (match shift ex_lat1 (fun _ _ => false) (fun _ i => i) [2; 0] EVEN (fun _ _ => 100) (fun _ _ => 300) with Some o => o | None => fun _ _ => 0 end).
  split; [exact ex_lat1_valid|]. split; [reflexivity|].
  split; [split; [reflexivity|]; split; [reflexivity|]; intros [|[|j]] Hj; [vm_compute; split; congruence|vm_compute; split; congruence|cbn in Hj; lia]|].
  split; [reflexivity|].
  split; [reflexivity|]. split; [reflexivity|]. vm_compute. discriminate.
Qed.
Print Assumptions C17_one_parity_on_odd_lattice_refuted.

(** A lattice of 4 x 2 on 2 x 1 ranks: shift of the even sites by (3, 0);
    on the 5 x 4 lattice the shift of all sites by (-1, 1). *)
Definition ex_lat_even : lattice := mkLattice [4; 2] [2; 1] (fun x => x) (fun x => x).
Lemma ex_lat_even_valid : valid_lattice ex_lat_even.
Proof.
  split; [reflexivity|]. split; [repeat constructor; lia|]. split; [repeat constructor; lia|].
  split; intros i Hi; split; auto.
Qed.

Definition ex_all_values (lat : lattice) (st : option (rank_store Z)) : list (list Z) :=
  match st with
  | None => []
  | Some s => map (fun r => map (s r) (loop_indices (nodeinfo lat r) ALL)) (zrange 0 (Z.to_nat (number_of_nodes lat)))
  end.

Example C17_example :
  valid_lattice ex_lat /\ valid_lattice ex_lat_even /\ Forall (fun s => Z.even s = true) (l_size ex_lat_even) /\
  represents ex_lat (ex_store ex_lat) ex_field /\ represents ex_lat_even (ex_store ex_lat_even) ex_field /\
  translate (l_size ex_lat) [0; 3] [-1; 1] = [4; 0] /\
  (match shift ex_lat (fun _ _ => true) (ex_store ex_lat) [-1; 1] ALL (fun _ _ => 7) (fun _ _ => 8) with
  | Some o => o (node_rank ex_lat [0; 3]) (site_index (nodeinfo ex_lat (node_rank ex_lat [0; 3])) [0; 3]) = ex_field [4; 0]
  | None => False
  end) /\
  ex_all_values ex_lat_even (shift ex_lat_even (fun _ _ => false) (ex_store ex_lat_even) [3; 0] EVEN (fun _ _ => 7) (fun _ _ => 8))
    = [ [ex_field [3; 0]; ex_field [0; 1]; 7; 7]; [ex_field [1; 0]; ex_field [2; 1]; 7; 7] ].
Proof.
  split; [exact ex_lat_valid|]. split; [exact ex_lat_even_valid|]. split; [repeat constructor|].
  split; [exact (ex_store_field _ ex_lat_valid)|]. split; [exact (ex_store_field _ ex_lat_even_valid)|].
  split; [reflexivity|]. split; vm_compute; reflexivity.
Qed.
