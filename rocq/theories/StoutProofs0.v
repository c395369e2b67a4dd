(** The number of turns. *)
From Coq Require Import ZArith List Lia.
Open Scope Z_scope.

Lemma turns_even i : 0 <= i -> Z.rem i 2 = 0 -> Z.to_nat i = (2 * Z.to_nat (Z.quot i 2))%nat.
Proof. intros h r; pose proof (Z.quot_rem' i 2); lia. Qed.
Lemma turns_odd i : 0 <= i -> Z.rem i 2 <> 0 -> Z.to_nat i = S (2 * Z.to_nat (Z.quot i 2))%nat.
Proof. intros h r; pose proof (Z.quot_rem' i 2); pose proof (Z.rem_bound_pos i 2 h ltac:(lia)); lia. Qed.
Lemma turns_negative i : i < 0 -> Z.to_nat (Z.quot i 2) = O.
Proof.
intros h; replace i with (- - i) by lia; rewrite Z.quot_opp_l by lia.
pose proof (Z.quot_pos (- i) 2 ltac:(lia) ltac:(lia)); lia.
Qed.
Lemma rem_even i : (Z.rem i 2 =? 0) = Z.even i.
Proof.
apply Bool.eq_true_iff_eq; rewrite Z.eqb_eq, Z.even_spec; rewrite Z.rem_divide by lia.
split; intros [k E]; exists k; lia.
Qed.

Lemma count_staples N : Z.to_nat (2 * (Z.of_nat (S N) - 1) - 1) = Nat.pred (N + N)%nat.
Proof. lia. Qed.
Lemma back_place N k : (k < N)%nat ->
  2 * (Z.of_nat (S N) - 1) - 1 - Z.of_nat k = Z.of_nat (N + (N - S k)).
Proof. lia. Qed.
Lemma next_place k : Z.of_nat (S k) - 1 = Z.of_nat k.
Proof. lia. Qed.
Lemma back_nat0 D d d2 : (1 < D)%nat -> (d < D)%nat -> (d2 < D)%nat -> d2 <> d ->
  Z.of_nat (2 * Nat.pred D - 1 - (if Nat.ltb d2 d then d2 else Nat.pred d2))
  = 2 * (Z.of_nat D - 1) - 1 - (if Nat.ltb d2 d then Z.of_nat d2 else Z.of_nat d2 - 1).
Proof. intros; destruct (Nat.ltb_spec d2 d); lia. Qed.
