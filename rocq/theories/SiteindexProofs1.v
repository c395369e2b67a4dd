From Coq Require Import ZArith List Lia.
From Verif Require Import SiteindexModel SiteindexSpec.
Import ListNotations.
Local Open Scope Z_scope.

Lemma size_small : forall z, 0 <= z < 2 ^ 64 -> to_size_t z = z.
Proof. intros z H. unfold to_size_t. apply Z.mod_small; exact H. Qed.
Lemma int_small : forall z, 0 <= z < 2 ^ 31 -> to_int z = z.
Proof. intros z H. unfold to_int. rewrite Z.mod_small; lia. Qed.

Lemma volume_pos : forall sizes, Forall (fun n => 0 < n < 2 ^ 31) sizes -> 0 < volume sizes.
Proof. induction 1; cbn [volume fold_right]; [lia|]. fold (volume l). nia. Qed.

Lemma index_range : forall sizes x, valid_site sizes x -> 0 <= running_index sizes x < volume sizes.
Proof.
  induction 1; cbn [running_index volume fold_right]; [lia|].
  fold (volume l). nia.
Qed.

(** m is the product of the sizes so far, computed modulo 2^64. *)
Lemma from_fold : forall sizes x value m,
  fst (fold_left from_step (combine sizes x) (value mod 2 ^ 64, m mod 2 ^ 64)) =
  (value + m * running_index sizes x) mod 2 ^ 64.
Proof.
  induction sizes as [|n sizes IH]; intros x value m.
  - cbn [combine fold_left fst running_index]. f_equal. lia.
  - destruct x as [|c x].
    + cbn [combine fold_left fst running_index]. f_equal. lia.
    + cbn [combine fold_left running_index]. unfold from_step at 2. unfold to_size_t.
      rewrite <- Z.mul_mod by lia. rewrite <- Z.add_mod by lia. rewrite <- Z.mul_mod by lia.
      rewrite IH. f_equal. ring.
Qed.

Lemma from_mod : forall sizes x, from_coordinates sizes x = running_index sizes x mod 2 ^ 64.
Proof.
  intros sizes x. unfold from_coordinates.
  rewrite <- (Z.mod_small 0 (2 ^ 64)) at 1 by lia.
  rewrite <- (Z.mod_small 1 (2 ^ 64)) at 1 by lia.
  rewrite from_fold. f_equal. lia.
Qed.

Lemma from_ok : forall sizes x, valid_sizes sizes -> valid_site sizes x ->
  from_coordinates sizes x = running_index sizes x.
Proof.
  intros sizes x [_ V] H. rewrite from_mod. apply Z.mod_small.
  pose proof (index_range sizes x H). lia.
Qed.

Lemma loop_index : forall sizes x, Forall (fun n => 0 < n < 2 ^ 31) sizes -> valid_site sizes x ->
  coordinates_loop sizes (running_index sizes x) = Some x.
Proof.
  intros sizes x Hs H. revert Hs. induction H as [|n c sizes x Hc H IH]; intros Hs; [reflexivity|].
  inversion Hs as [|? ? Hn Hs']; subst.
  cbn [running_index coordinates_loop]. rewrite (size_small n) by lia.
  destruct (Z.eqb_spec n 0); [lia|].
  replace (c + n * running_index sizes x) with (running_index sizes x * n + c) by ring.
  rewrite Z.div_add_l by lia. rewrite (Z.div_small c n) by lia. rewrite Z.add_0_r.
  rewrite (IH Hs'). rewrite Z.add_comm, Z.mod_add by lia. rewrite (Z.mod_small c n) by lia.
  rewrite int_small by lia. reflexivity.
Qed.

Lemma loop_value : forall sizes v, Forall (fun n => 0 < n < 2 ^ 31) sizes -> 0 <= v < volume sizes ->
  exists x, coordinates_loop sizes v = Some x /\ valid_site sizes x /\ running_index sizes x = v.
Proof.
  induction sizes as [|n sizes IH]; intros v Hs Hv; cbn [volume fold_right] in Hv.
  - exists []. repeat split; [constructor|cbn; lia].
  - inversion Hs as [|? ? Hn Hs']; subst. fold (volume sizes) in Hv.
    assert (R : 0 <= v / n < volume sizes).
    { split; [apply Z.div_pos; lia|]. apply Z.div_lt_upper_bound; lia. }
    destruct (IH (v / n) Hs' R) as (x & E & S & I).
    pose proof (Z.mod_pos_bound v n ltac:(lia)) as B.
    exists (v mod n :: x). cbn [coordinates_loop running_index]. rewrite (size_small n) by lia.
    destruct (Z.eqb_spec n 0); [lia|]. rewrite E, int_small, I by lia.
    split; [reflexivity|]. split; [constructor; assumption|].
    pose proof (Z.div_mod v n ltac:(lia)). lia.
Qed.
