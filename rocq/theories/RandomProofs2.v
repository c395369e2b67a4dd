(** Seeds and partitions. *)
From Verif Require Import Common RandomModel RandomSpec.
Open Scope Z_scope.

Lemma lxor_cancel : forall a b c d, Z.lxor a b = Z.lxor c d -> Z.lxor a c = Z.lxor b d.
Proof.
  intros a b c d H. apply Z.bits_inj'. intros k _. assert (Hk := f_equal (fun z => Z.testbit z k) H). cbn beta in Hk.
  rewrite !Z.lxor_spec in *. destruct (Z.testbit a k), (Z.testbit b k), (Z.testbit c k), (Z.testbit d k); cbn in *; congruence.
Qed.

(** The low [b] bits of the seed of rank n. *)
Lemma low_bits : forall b x y, 0 <= b -> (forall k, 0 <= k < b -> Z.testbit x k = Z.testbit y k) -> x mod 2 ^ b = y mod 2 ^ b.
Proof.
  intros b x y Hb H. apply Z.bits_inj'. intros k Hk. destruct (Z.lt_ge_cases k b).
  - rewrite !Z.mod_pow2_bits_low by lia. apply H. lia.
  - rewrite !Z.mod_pow2_bits_high by lia. reflexivity.
Qed.

Lemma low_bits_inv : forall b x k, 0 <= k < b -> Z.testbit (x mod 2 ^ b) k = Z.testbit x k.
Proof. intros. apply Z.mod_pow2_bits_low. lia. Qed.

Lemma shuffled_low : forall b n s, 0 <= b <= 31 -> (Z.lxor (u64 (s + n)) (u64 (Z.shiftl n 31))) mod 2 ^ b = (s + n) mod 2 ^ b.
Proof.
  intros b n s Hb. apply low_bits; [lia|]. intros k Hk. unfold u64.
  rewrite Z.lxor_spec, !Z.mod_pow2_bits_low by lia. rewrite Z.shiftl_spec_low by lia. apply xorb_false_r.
Qed.

Lemma xor_low : forall s p, (Z.lxor s (u64 (Z.shiftl p 28))) mod 2 ^ 28 = s mod 2 ^ 28.
Proof.
  intros s p. apply low_bits; [lia|]. intros k Hk. unfold u64.
  rewrite Z.lxor_spec, Z.mod_pow2_bits_low by lia. rewrite Z.shiftl_spec_low by lia. apply xorb_false_r.
Qed.

Lemma add_mod_inj : forall M s n m, 0 < M -> 0 <= n < M -> 0 <= m < M -> (s + n) mod M = (s + m) mod M -> n = m.
Proof.
  intros M s n m HM Hn Hm H. assert (Hd : (n - m) mod M = 0).
  { replace (n - m) with ((s + n) - (s + m)) by lia. rewrite Zminus_mod, H, Z.sub_diag. apply Z.mod_0_l. lia. }
  apply Z.mod_divide in Hd; [|lia]. destruct Hd as [q Hq]. assert (q = 0) by nia. lia.
Qed.

(** ** Partitions *)
Lemma colour_of : forall P n r, 0 < P -> 0 < n -> 0 <= r -> r * P / (P * n) = r / n.
Proof. intros P n r HP Hn Hr. rewrite (Z.mul_comm r P). apply Z.div_mul_cancel_l; lia. Qed.

Lemma filter_block : forall n p lo cnt, 0 < n -> 0 <= lo -> Z.of_nat cnt = n * p -> lo = 0 ->
  filter (fun r => r / n =? p) (zrange lo cnt) = [].
Proof.
  intros n p lo cnt Hn Hlo Hc ->. apply filter_none. intros r Hr. apply zrange_In in Hr.
  apply Z.eqb_neq. intros E. assert (r / n < p) by (apply Z.div_lt_upper_bound; lia). lia.
Qed.

Lemma members_block : forall P n p, 0 < P -> 0 < n -> 0 <= p < P ->
  filter (fun r => r / n =? p) (zrange 0 (Z.to_nat (P * n))) = zrange (p * n) (Z.to_nat n).
Proof.
  intros P n p HP Hn Hp.
  replace (Z.to_nat (P * n)) with (Z.to_nat (p * n) + (Z.to_nat n + Z.to_nat ((P - p - 1) * n)))%nat
    by (rewrite <- !Z2Nat.inj_add by nia; f_equal; lia).
  rewrite !zrange_app, !filter_app.
  rewrite (filter_block n p 0 (Z.to_nat (p * n))) by nia. cbn [app].
  replace (0 + Z.of_nat (Z.to_nat (p * n))) with (p * n) by nia.
  rewrite (filter_all _ _ (zrange (p * n) (Z.to_nat n))).
  - rewrite filter_none, app_nil_r; [reflexivity|].
    intros r Hr. apply zrange_In in Hr. apply Z.eqb_neq. intros E.
    assert (p + 1 <= r / n) by (apply Z.div_le_lower_bound; lia). lia.
  - intros r Hr. apply zrange_In in Hr. apply Z.eqb_eq. symmetry. apply (Z.div_unique_pos r n p (r - p * n)); lia.
Qed.

Lemma position_zrange : forall cnt lo x, lo <= x < lo + Z.of_nat cnt -> position x (zrange lo cnt) = Some (x - lo).
Proof.
  induction cnt as [|cnt IH]; intros lo x H; [lia|]. cbn [zrange position].
  destruct (Z.eqb_spec lo x) as [->|Hne]; [now rewrite Z.sub_diag|]. rewrite IH by lia. f_equal. lia.
Qed.
