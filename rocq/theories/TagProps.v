(** C22: message tags. *)
From Verif Require Import Common LayoutModel LayoutSpec LayoutProps GatherModel ReductionProps TagModel TagSpec TagProofs1.

(** Rank A has executed the first i operations of the program and rank B the first j.
    The n-th message that A sent to B with some communicator and tag, which MPI
    delivers to the n-th receive of B for that sender, communicator and tag, is the
    message that this receive was posted for: same operation, field, direction,
    parity and size. *)
Theorem C22_right_message : forall lats comm, (forall L, valid_lattice (lats L)) ->
  forall A B, (forall L, is_rank (lats L) A) -> (forall L, is_rank (lats L) B) -> A <> B ->
  forall prog, Forall (op_ok lats) prog ->
  forall i j ea eb, tag_run lats comm A 0 (firstn i prog) tag_init = Some ea ->
    tag_run lats comm B 0 (firstn j prog) tag_init = Some eb ->
  forall c tag n m m', nth_error (sends_to c B tag ea) n = Some m -> nth_error (receives_from c A tag eb) n = Some m' -> m = m'.
Proof.
  intros lats comm Hv A B HA HB HAB prog Hp i j ea eb Ea Eb c tag n m m' Hs Hr.
  assert (Hi : forall k, Forall (op_ok lats) (firstn k prog)).
  { intros k. apply Forall_forall. intros o Ho. apply (proj1 (Forall_forall _ _) Hp).
    rewrite <- (firstn_skipn k prog). apply in_or_app. auto. }
  assert (HI : in_step lats A B tag_init tag_init) by (split; auto).
  assert (NE : forall (x y : list posted), nth_error x n = Some m' \/ nth_error x n = Some m -> nth_error (x ++ y) n = nth_error x n).
  { intros x y H. apply nth_error_app1. apply nth_error_Some. destruct H as [-> | ->]; discriminate. }
  destruct (Nat.le_ge_cases i j) as [Hij|Hij].
  - destruct (run_prefix lats comm B prog 0 tag_init i j eb Hij Eb) as (e & rest & E & ->).
    assert (HE := run_pair lats comm Hv A B HA HB HAB _ _ _ _ _ _ (Hi i) HI Ea E c tag).
    unfold receives_from in Hr. rewrite with_envelope_app in Hr. unfold sends_to in Hs. rewrite HE in Hs.
    rewrite NE in Hr by auto. congruence.
  - destruct (run_prefix lats comm A prog 0 tag_init j i ea Hij Ea) as (e & rest & E & ->).
    assert (HE := run_pair lats comm Hv A B HA HB HAB _ _ _ _ _ _ (Hi j) HI E Eb c tag).
    unfold sends_to in Hs. rewrite with_envelope_app in Hs. unfold receives_from in Hr. rewrite <- HE in Hr.
    rewrite NE in Hs by auto. congruence.
Qed.
Print Assumptions C22_right_message.

(** When both have executed the same part of the program, the messages sent by A and
    the receives posted by B are the same, one to one: none is left over. *)
Theorem C22_every_message : forall lats comm, (forall L, valid_lattice (lats L)) ->
  forall A B, (forall L, is_rank (lats L) A) -> (forall L, is_rank (lats L) B) -> A <> B ->
  forall prog, Forall (op_ok lats) prog ->
  forall ea eb, tag_run lats comm A 0 prog tag_init = Some ea -> tag_run lats comm B 0 prog tag_init = Some eb ->
  forall c tag, sends_to c B tag ea = receives_from c A tag eb.
Proof.
  intros lats comm Hv A B HA HB HAB prog Hp ea eb Ea Eb c tag.
  apply (run_pair lats comm Hv A B HA HB HAB prog 0 tag_init tag_init); auto. split; auto.
Qed.
Print Assumptions C22_every_message.

(** The tags of halo messages: 101, 102, ..., 500, 100, 101, ... in the order of the
    calls, whether or not the rank itself communicated in them. *)
Theorem C22_tags : forall lats comm r prog ev, tag_run lats comm r 0 prog tag_init = Some ev ->
  forall e k L f d q n, In e ev -> e_msg e = Halo k L f d q n ->
    e_tag e = 100 + count_starts (firstn (S k) prog) mod 401 /\ 100 <= e_tag e <= 500.
Proof.
  intros lats comm r prog ev E e k L f d q n He Hm.
  assert (H := run_tags lats comm r prog 0 0 tag_init ev ltac:(lia) eq_refl E e He). rewrite Hm in H.
  destruct H as [_ H]. rewrite Nat.sub_0_r in H. unfold tag_of in H. rewrite Z.add_0_l in H. split; auto.
  rewrite H. assert (X := Z.mod_pos_bound (count_starts (firstn (S k) prog)) 401 ltac:(lia)). lia.
Qed.
Print Assumptions C22_tags.

(** Six ranks on a 5 x 4 lattice and a one-dimensional lattice; 402 gathers and writes,
    so that the first two tags occur twice; in the end a message from rank 0 to rank 1.
    The messages from rank 1 to rank 0 with tag 102 are 1203 operations apart. *)
Definition ex_lats (L : nat) : lattice :=
  match L with O => ex_lat | _ => mkLattice [12] [6] (fun x => x) (fun x => x) end.
Definition ex_prog : list tag_op :=
  flat_map (fun k => [TStart 0 7 1 ALL; TWait 0 7 1 ALL; TChanged 0 7 1 ALL; TStart 1 8 0 ODD; TWait 1 8 0 ODD; TChanged 1 8 0 ALL])
           (zrange 0 201) ++ [TStart 1 8 0 ODD; TStart 0 7 1 ODD; TStart 0 7 1 ALL; TPoint 0 0 1 16].

Lemma ex_lats_valid : forall L, valid_lattice (ex_lats L).
Proof.
  intros [|L]; [exact ex_lat_valid|]. cbn [ex_lats].
  split; [reflexivity|]. split; [repeat constructor; lia|]. split; [repeat constructor; lia|].
  split; intros i Hi; split; auto.
Qed.

Example C22_example :
  (forall L, valid_lattice (ex_lats L)) /\ (forall L, is_rank (ex_lats L) 0) /\ (forall L, is_rank (ex_lats L) 1) /\
  Forall (op_ok ex_lats) ex_prog /\
  match tag_run ex_lats (fun L => 5) 0 0 ex_prog tag_init, tag_run ex_lats (fun L => 5) 1 0 ex_prog tag_init with
  | Some e0, Some e1 =>
      receives_from 5 1 102 e0 = [Halo 3 1 8 0 ODD 1; Halo 1206 1 8 0 ODD 1] /\ length e0 = 811%nat /\ length e1 = 811%nat
  | _, _ => False
  end.
Proof.
  split; [exact ex_lats_valid|]. split; [intros [|L]; split; cbn; lia|]. split; [intros [|L]; split; cbn; lia|].
  split.
  - apply Forall_forall. intros o Ho. apply in_app_or in Ho. destruct Ho as [Ho|Ho].
    + apply in_flat_map in Ho. destruct Ho as (k & _ & Ho).
      repeat (destruct Ho as [<-|Ho]; [cbn; unfold is_direction; cbn; lia|]). destruct Ho.
    + repeat (destruct Ho as [<-|Ho]; [cbn; unfold is_direction; cbn; lia|]). destruct Ho.
  - vm_compute. repeat split; reflexivity.
Qed.
