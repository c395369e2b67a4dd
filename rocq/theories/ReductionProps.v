(** C19 and C20: reduction variables and reduction vectors. *)
From Coq Require Import Permutation.
From Verif Require Import Common LayoutModel LayoutSpec LayoutProps.
From Verif Require Import ReduceModel ReduceSpec ReduceProofs1 ReduceProps ReductionModel ReductionSpec ReductionProofs1 ReductionProofs2.

(** C19.  For every history of assignments, [+=], site loops, start_reduce, reduce,
    value and changes of mode that is not one of the misuses of the specification,
    what is read is the mathematical value: on rank 0, and on all ranks when the
    value was combined with allreduce.  Any order of combination of the ranks, any
    contents of the buffers during non-blocking reductions. *)
Theorem C19_histories : forall (V : Type) (add : V -> V -> V) (zero : V), comm_monoid add zero ->
  forall lat, valid_lattice lat -> forall order, any_order lat order ->
  forall sites, (forall p, enumerates (l_size lat) p (sites p)) ->
  forall junk ops expected, abs_run add zero sites ops (abs_new zero) = Some expected ->
  exists got, red_run add zero lat order junk ops (red_new zero) = Some got /\ Forall2 (agrees lat) expected got.
Proof.
  intros V add zero Hm lat Hv order Ho sites Hs junk ops expected He.
  exact (red_run_ok add zero Hm lat Hv order Ho junk sites Hs ops _ _ expected (new_inv add zero lat order) He).
Qed.
Print Assumptions C19_histories.

(** The usual pattern, in immediate ([delayed = false]) and in delayed mode, blocking
    or not: assign v, any positive number of loops, read: every rank reads v plus the
    contributions of all loops. *)
Definition accumulate {V : Type} (delayed nonblocking : bool) (v : V) (loops : list (parity * (list Z -> V))) : list (rop V) :=
  RDelayed delayed :: RNonblocking nonblocking :: RAssign v :: map (fun l => RLoop (fst l) (snd l)) loops ++ [RValue].

Lemma accumulate_abs : forall V (add : V -> V -> V) zero sites nb loops a,
  a_all a = true -> a_nonblocking a = nb ->
  (a_delayed a = true -> a_spoiled a = false) -> (a_delayed a = false -> a_open a = false) ->
  (loops <> [] \/ (a_delayed a = true /\ a_open a = true) \/ (a_delayed a = false /\ a_everywhere a = true)) ->
  abs_run add zero sites (map (fun l => RLoop (fst l) (snd l)) loops ++ [RValue]) a =
  Some (map (fun _ => None) loops ++
    [Some (fold_left (fun x l => add x (total add zero (map (snd l) (sites (fst l))))) loops (a_value a), true)]).
Proof.
  intros V add zero sites nb. induction loops as [|[p g] loops IH]; intros a H1 H2 H3 H4 H5.
  - cbn [map app fold_left]. destruct H5 as [H5|[[H5 H6]|[H5 H6]]]; [congruence| |]; cbn [abs_run abs_step].
    + rewrite H6. cbn [a_value a_everywhere]. rewrite H1. auto.
    + rewrite (H4 H5). cbn [a_value a_everywhere]. rewrite H6. auto.
  - cbn [map app fold_left fst snd]. cbn [abs_run abs_step].
    destruct (a_delayed a) eqn:Ed.
    + rewrite (H3 eq_refl). rewrite IH; cbn; auto; discriminate.
    + rewrite (H4 eq_refl). rewrite IH; cbn; auto; discriminate.
Qed.

Theorem C19_assign_accumulate_read : forall (V : Type) (add : V -> V -> V) (zero : V), comm_monoid add zero ->
  forall lat, valid_lattice lat -> forall order, any_order lat order ->
  forall sites, (forall p, enumerates (l_size lat) p (sites p)) ->
  forall junk delayed nonblocking v loops, loops <> [] ->
  exists outs f, red_run add zero lat order junk (accumulate delayed nonblocking v loops) (red_new zero) = Some (outs ++ [Some f]) /\
    forall r, is_rank lat r ->
      f r = fold_left (fun x l => add x (total add zero (map (snd l) (sites (fst l))))) loops v.
Proof.
  intros V add zero Hm lat Hv order Ho sites Hs junk delayed nb v loops Hl.
  destruct (C19_histories V add zero Hm lat Hv order Ho sites Hs junk (accumulate delayed nb v loops)
    (None :: None :: None :: map (fun _ => None) loops ++
      [Some (fold_left (fun x l => add x (total add zero (map (snd l) (sites (fst l))))) loops v, true)])) as (got & G1 & G2).
  { unfold accumulate. cbn [abs_run abs_step]. rewrite (accumulate_abs V add zero sites nb); cbn; auto. }
  rewrite !app_comm_cons in G2. apply Forall2_app_inv_l in G2. destruct G2 as (l1 & l2 & _ & G2 & ->).
  inversion G2 as [|? y ? ? Hy Hnil]; subst. inversion Hnil; subst. destruct y as [f|]; [|destruct Hy].
  exists l1, f. split; auto. destruct Hy as [_ Hy]. auto.
Qed.
Print Assumptions C19_assign_accumulate_read.

(** The misuses give wrong results.  Two ranks with one site each. *)
Definition ex_lat2 : lattice := mkLattice [2] [2] (fun x => x) (fun x => x).
Lemma ex_lat2_valid : valid_lattice ex_lat2.
Proof.
  split; [reflexivity|]. split; [repeat constructor; lia|]. split; [repeat constructor; lia|].
  split; intros i Hi; split; auto.
Qed.

Definition last_read (lat : lattice) (ops : list (rop Z)) : list Z :=
  match red_run Z.add 0 lat (ex_order lat) (fun _ => -1) ops (red_new 0) with
  | Some outs => match last outs None with Some f => map f (zrange 0 (Z.to_nat (number_of_nodes lat))) | None => [] end
  | None => []
  end.

(** Delayed accumulation, read, more accumulation, read: the contributions (each
    loop adds 10 per site) are 0 + 20 + 20 = 40, but 20 + 20 + 20 = 60 is read: the
    first total is counted once per rank. *)
Theorem C19_delayed_after_read_refuted :
  last_read ex_lat2 [RDelayed true; RAssign 0; RLoop ALL (fun _ => 10); RValue] = [20; 20] /\
  last_read ex_lat2 [RDelayed true; RAssign 0; RLoop ALL (fun _ => 10); RValue; RLoop ALL (fun _ => 10); RValue] = [60; 60].
Proof. split; vm_compute; reflexivity. Qed.
Print Assumptions C19_delayed_after_read_refuted.

(** A value that was only assigned is read on rank 0 only; the others read 0. *)
Theorem C19_assigned_value_on_other_ranks_refuted : last_read ex_lat2 [RAssign 5; RValue] = [5; 0].
Proof. vm_compute; reflexivity. Qed.
Print Assumptions C19_assigned_value_on_other_ranks_refuted.

(** [r += 3] outside of loops while delayed: counted once per rank. *)
Theorem C19_plus_outside_loops_delayed_refuted :
  last_read ex_lat2 [RDelayed true; RAssign 0; RLoop ALL (fun _ => 10); RPlus 3; RValue] = [26; 26].
Proof. vm_compute; reflexivity. Qed.
Print Assumptions C19_plus_outside_loops_delayed_refuted.

(** Delayed mode switched off before the value was read: the delayed contributions
    of the other ranks are lost, and the total is counted once per rank. *)
Theorem C19_delayed_switched_off_refuted :
  last_read ex_lat2 [RDelayed true; RAssign 0; RLoop ALL (fun _ => 10); RDelayed false; RLoop ALL (fun _ => 1); RValue] = [24; 24].
Proof. vm_compute; reflexivity. Qed.
Print Assumptions C19_delayed_switched_off_refuted.

(** A list of the sites of the 5 x 4 lattice and a history with all kinds of calls. *)
Definition ex_sites (lat : lattice) (p : parity) : list (list Z) :=
  flat_map (visited lat p) (zrange 0 (Z.to_nat (number_of_nodes lat))).

Lemma ex_sites_ok : forall lat, valid_lattice lat -> forall p, enumerates (l_size lat) p (ex_sites lat p).
Proof.
  intros lat Hv p. destruct (sites_enumerated lat p Hv) as (l & Hl).
  assert (P := all_sites_perm lat Hv p l Hl). destruct Hl as [N I]. split.
  - eapply Permutation_NoDup; [apply Permutation_sym, P|auto].
  - intros c. rewrite <- I. split; apply Permutation_in; [exact P|apply Permutation_sym, P].
Qed.

Example C19_example :
  let ops := [RAssign 100; RLoop EVEN (fun c => nth 0 c 0); RValue; RNonblocking true; RLoop ALL (fun _ => 1); RStart; RPlus 7 ] in
  let ops' := [RAssign 100; RLoop EVEN (fun c => nth 0 c 0); RValue; RNonblocking true; RLoop ALL (fun _ => 1); RValue; RPlus 7; RValue;
               RDelayed true; RAssign 5; RAllreduce false; RLoop ODD (fun _ => 1); RLoop EVEN (fun _ => 2); RReduce; RValue] in
  valid_lattice ex_lat /\ any_order ex_lat (ex_order ex_lat) /\ (forall p, enumerates (l_size ex_lat) p (ex_sites ex_lat p)) /\
  abs_run Z.add 0 (ex_sites ex_lat) ops (abs_new 0) = None /\
  abs_run Z.add 0 (ex_sites ex_lat) ops' (abs_new 0) =
    Some [None; None; Some (120, true); None; None; Some (140, true); None; Some (147, true);
          None; None; None; None; None; None; Some (35, false)].
Proof.
  split; [exact ex_lat_valid|]. split; [unfold any_order, ex_order; rewrite left_tree_leaves; apply Permutation_refl|].
  split; [apply ex_sites_ok, ex_lat_valid|]. split; vm_compute; reflexivity.
Qed.

(** C20.  For every history of assignments, element writes and reads, site loops that
    add to (or, in immediate mode, multiply) elements chosen at each site, waits,
    reductions and changes of mode that is not one of the misuses of the
    specification, what is read is the mathematical value of the element. *)
Theorem C20_histories : forall (V : Type) (add mul : V -> V -> V) (zero one : V), comm_monoid add zero -> comm_monoid mul one ->
  forall lat, valid_lattice lat -> forall order, (forall j, any_order lat (order j)) ->
  forall sites, (forall p, enumerates (l_size lat) p (sites p)) ->
  forall junk n ops expected, abs_vec_run add mul zero one sites ops (abs_vec_new zero n) = Some expected ->
  exists got, vec_run add mul zero one lat junk order ops (rvec_new zero n) = Some got /\ Forall2 (agrees lat) expected got.
Proof.
  intros V add mul zero one Ha Hm lat Hv order Ho sites Hs junk n ops expected He.
  exact (vec_run_ok add mul zero one Ha Hm lat Hv order Ho junk sites Hs ops _ _ expected (vnew_inv add zero lat order n) He).
Qed.
Print Assumptions C20_histories.

Definition vlast_read (lat : lattice) (n : nat) (ops : list (vop Z)) : option (list Z) :=
  match vec_run Z.add Z.mul 0 1 lat (fun _ _ => -1) (fun _ => ex_order lat) ops (rvec_new 0 n) with
  | Some outs => match last outs None with Some f => Some (map f (zrange 0 (Z.to_nat (number_of_nodes lat)))) | None => Some [] end
  | None => None
  end.

(** A delayed product adds the contributions of the ranks: 3 * 3 sites give 6; and a
    second delayed product loop stops the program (assertion). *)
Theorem C20_delayed_product_refuted :
  vlast_read ex_lat2 1 [VAssign 1; VLoop true ALL (fun _ => [(0%nat, 3)]); VRead 0] = Some [9; 9] /\
  vlast_read ex_lat2 1 [VDelayed true; VAssign 1; VLoop true ALL (fun _ => [(0%nat, 3)]); VReduce; VRead 0] = Some [6; 6] /\
  vlast_read ex_lat2 1 [VDelayed true; VAssign 1; VLoop true ALL (fun _ => [(0%nat, 3)]); VLoop true ALL (fun _ => [(0%nat, 3)]); VReduce; VRead 0] = None.
Proof. repeat split; vm_compute; reflexivity. Qed.
Print Assumptions C20_delayed_product_refuted.

(** Assigning a nonzero value while delayed contributions are open: counted once per
    rank. *)
Theorem C20_assignment_while_delayed_refuted :
  vlast_read ex_lat2 1 [VDelayed true; VLoop false ALL (fun _ => [(0%nat, 3)]); VAssign 1; VLoop false ALL (fun _ => [(0%nat, 3)]); VReduce; VRead 0] = Some [8; 8].
Proof. vm_compute; reflexivity. Qed.
Print Assumptions C20_assignment_while_delayed_refuted.

Example C20_example :
  let g := fun c : list Z => [(Z.to_nat (nth 0 c 0 mod 3), nth 1 c 0); (2%nat, 100)] in
  let ops := [VAssign 5; VLoop false ALL g; VRead 1; VSet 0 1000; VDelayed true; VNonblocking true; VLoop false EVEN g; VLoop false ODD g;
              VReduce; VRead 0; VRead 2; VDelayed false; VLoop true EVEN (fun c => if nth 0 c 0 =? 4 then [(1%nat, 2)] else []); VWait; VRead 1;
              VDelayed true; VLoop false ALL g; VReduce; VRead 1] in
  abs_vec_run Z.add Z.mul 0 1 (ex_sites ex_lat) ops (abs_vec_new 0 3) =
    Some [None; None; Some (17, true); None; None; None; None; None; None; Some (1012, true); Some (4017, true); None; None; None; Some (116, true);
          None; None; None; Some (128, true)].
Proof. vm_compute; reflexivity. Qed.
