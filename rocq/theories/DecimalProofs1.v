(** Proofs about printing and scanning numbers. *)
From Coq Require Import QArith Qround Qpower String Lqa.
From Verif Require Import Common SrcbufModel WordsModel CmdargsModel MucaModel MucaProofs1 DecimalModel.
Open Scope list_scope.
Open Scope nat_scope.

Lemma base_pos : forall b, (2 <= b)%Z -> (0 < inject_Z b)%Q.
Proof. intros b Hb. apply (Qlt_le_trans _ 2); [reflexivity|]. change 2%Q with (inject_Z 2). rewrite <- Zle_Qle. exact Hb. Qed.
Lemma qpow_pos : forall b e, (2 <= b)%Z -> (0 < qpow b e)%Q.
Proof. intros. apply Qpower_0_lt. apply base_pos. assumption. Qed.
Lemma qpow_plus : forall b d e, (2 <= b)%Z -> (qpow b (d + e) == qpow b d * qpow b e)%Q.
Proof. intros b d e Hb. apply Qpower_plus. pose proof (base_pos b Hb). lra. Qed.
Lemma qpow_le : forall b d e, (2 <= b)%Z -> (d <= e)%Z -> (qpow b d <= qpow b e)%Q.
Proof. intros b d e Hb H. apply Qpower_le_compat_l; [exact H|]. change 1%Q with (inject_Z 1). rewrite <- Zle_Qle. lia. Qed.
Lemma qpow_nonneg : forall b e, (0 <= e)%Z -> (qpow b e == inject_Z (b ^ e))%Q.
Proof. intros b e He. symmetry. apply Zpower_Qpower. exact He. Qed.
Lemma qpow_0 : forall b, (qpow b 0 == 1)%Q.
Proof. intros. reflexivity. Qed.
Lemma qpow_inv : forall b e, (2 <= b)%Z -> (qpow b e * qpow b (- e) == 1)%Q.
Proof. intros b e Hb. rewrite <- qpow_plus by exact Hb. replace (e + - e)%Z with 0%Z by lia. reflexivity. Qed.

Lemma expo_up_spec : forall b n e x, (2 <= b)%Z -> (qpow b e <= x)%Q -> (x < qpow b (e + 1 + Z.of_nat n))%Q ->
  (qpow b (expo_up b n e x) <= x)%Q /\ (x < qpow b (expo_up b n e x + 1))%Q.
Proof.
  intros b. induction n as [|n IH]; intros e x Hb H1 H2; cbn [expo_up].
  - split; [exact H1|]. replace (e + 1)%Z with (e + 1 + Z.of_nat 0)%Z by lia. exact H2.
  - destruct (qle (qpow b (e + 1)) x) eqn:E.
    + apply qle_iff in E. apply IH; [exact Hb|exact E|]. replace (e + 1 + 1 + Z.of_nat n)%Z with (e + 1 + Z.of_nat (S n))%Z by lia. exact H2.
    + apply qle_false in E. split; assumption.
Qed.
Lemma expo_down_spec : forall b n e x, (2 <= b)%Z -> (x < qpow b (e + 1))%Q -> (qpow b (e - Z.of_nat n) <= x)%Q ->
  (qpow b (expo_down b n e x) <= x)%Q /\ (x < qpow b (expo_down b n e x + 1))%Q.
Proof.
  intros b. induction n as [|n IH]; intros e x Hb H1 H2; cbn [expo_down].
  - split; [|exact H1]. replace e with (e - Z.of_nat 0)%Z by lia. exact H2.
  - destruct (qle (qpow b e) x) eqn:E.
    + apply qle_iff in E. split; assumption.
    + apply qle_false in E. apply IH; [exact Hb|replace (e - 1 + 1)%Z with e by lia; exact E|].
      replace (e - 1 - Z.of_nat n)%Z with (e - Z.of_nat (S n))%Z by lia. exact H2.
Qed.

Lemma pow2_le_pow : forall b n, (2 <= b)%Z -> (0 <= n)%Z -> (2 ^ n <= b ^ n)%Z.
Proof. intros. apply Z.pow_le_mono_l. lia. Qed.

Lemma expo_spec : forall b x, (2 <= b)%Z -> (0 < x)%Q -> (qpow b (expo b x) <= x)%Q /\ (x < qpow b (expo b x + 1))%Q.
Proof.
  intros b x Hb Hx. unfold expo.
  assert (Hn : (0 < Qnum x)%Z) by (unfold Qlt in Hx; cbn [Qnum Qden] in Hx; lia).
  destruct (qle 1 x) eqn:E.
  - apply qle_iff in E. apply expo_up_spec; [exact Hb|rewrite qpow_0; exact E|].
    pose proof (Z.log2_nonneg (Qnum x)) as L0. pose proof (Z.log2_spec (Qnum x) Hn) as [_ L1].
    rewrite Z2Nat.id by exact L0. replace (0 + 1 + Z.log2 (Qnum x))%Z with (Z.succ (Z.log2 (Qnum x))) by lia.
    rewrite qpow_nonneg by lia.
    pose proof (pow2_le_pow b (Z.succ (Z.log2 (Qnum x))) Hb ltac:(lia)) as P.
    apply (Qle_lt_trans _ (inject_Z (Qnum x))); [|rewrite <- Zlt_Qlt; lia].
    unfold Qle, inject_Z. cbn [Qnum Qden]. nia.
  - apply qle_false in E. apply expo_down_spec; [exact Hb|exact E|].
    pose proof (Z.log2_nonneg (Zpos (Qden x))) as L0. pose proof (Z.log2_spec (Zpos (Qden x)) ltac:(lia)) as [_ L1].
    rewrite Z2Nat.id by exact L0. set (k := Z.succ (Z.log2 (Z.pos (Qden x)))) in *.
    replace (-1 - Z.log2 (Z.pos (Qden x)))%Z with (- k)%Z by (unfold k; lia).
    assert (Hk : (0 <= k)%Z) by (unfold k; lia).
    pose proof (pow2_le_pow b k Hb Hk) as P.
    assert (G : (1 <= x * inject_Z (b ^ k))%Q).
    { unfold Qle, Qmult, inject_Z. cbn [Qnum Qden]. rewrite Pos.mul_1_r. nia. }
    pose proof (qpow_inv b k Hb) as I. rewrite (qpow_nonneg b k Hk) in I.
    pose proof (qpow_pos b (- k) Hb) as Ppos.
    assert (G2 : (0 <= (x * inject_Z (b ^ k) - 1) * qpow b (- k))%Q) by (apply Qmult_le_0_compat; lra).
    assert (G3 : ((x * inject_Z (b ^ k) - 1) * qpow b (- k) == x * (inject_Z (b ^ k) * qpow b (- k)) - qpow b (- k))%Q) by ring.
    rewrite I in G3. lra.
Qed.

Lemma nearest_int_spec : forall y, (inject_Z (nearest_int y) - y <= 1 # 2)%Q /\ (y - inject_Z (nearest_int y) <= 1 # 2)%Q.
Proof.
  intros y. unfold nearest_int. pose proof (Qfloor_le y) as F1. pose proof (Qlt_floor y) as F2.
  rewrite inject_Z_plus in F2. change (inject_Z 1) with 1%Q in F2.
  set (f := Qfloor y) in *. cbv zeta.
  assert (Hp : (inject_Z (f + 1) == inject_Z f + 1)%Q) by (rewrite inject_Z_plus; reflexivity).
  destruct (qlt (y - inject_Z f) (1 # 2)) eqn:E1; [apply qlt_iff in E1; lra|apply qlt_false in E1].
  destruct (qlt (1 # 2) (y - inject_Z f)) eqn:E2; [apply qlt_iff in E2; rewrite Hp; lra|apply qlt_false in E2].
  destruct (Z.even f); [lra|rewrite Hp; lra].
Qed.

Lemma nearest_int_bounds : forall y (lo hi : Z), (inject_Z lo <= y)%Q -> (y <= inject_Z hi)%Q -> (lo <= nearest_int y <= hi)%Z.
Proof.
  intros y lo hi H1 H2. destruct (nearest_int_spec y) as [N1 N2].
  assert (A : (inject_Z lo < inject_Z (nearest_int y + 1))%Q) by (rewrite inject_Z_plus; change (inject_Z 1) with 1%Q; lra).
  assert (B : (inject_Z (nearest_int y) < inject_Z (hi + 1))%Q) by (rewrite inject_Z_plus; change (inject_Z 1) with 1%Q; lra).
  rewrite <- Zlt_Qlt in A. rewrite <- Zlt_Qlt in B. lia.
Qed.

Lemma qabs_cases : forall x, ((x < 0)%Q /\ qabs x = (- x)%Q) \/ ((0 <= x)%Q /\ qabs x = x).
Proof.
  intros x. unfold qabs. destruct (qlt x 0) eqn:E; [apply qlt_iff in E; left|apply qlt_false in E; right]; split; auto.
Qed.

(** *** Digits *)

Lemma isdigit_iff : forall c, isdigit c = true <-> (48 <= c <= 57)%Z.
Proof. intros c. unfold isdigit. rewrite andb_true_iff, !Z.leb_le. reflexivity. Qed.

Lemma take_digits_digits : forall k n v j rest, (0 <= n < 10 ^ Z.of_nat k)%Z ->
  take_digits (digits k n ++ rest) v j = take_digits rest (v * 10 ^ Z.of_nat k + n)%Z (j + k).
Proof.
  induction k as [|k IH]; intros n v j rest Hn; cbn [digits app].
  - change (10 ^ Z.of_nat 0)%Z with 1%Z in *. replace (v * 1 + n)%Z with v by lia. replace (j + 0) with j by lia. reflexivity.
  - replace (Z.of_nat (S k)) with (Z.of_nat k + 1)%Z in * by lia. rewrite Z.pow_add_r in * by lia. change (10 ^ 1)%Z with 10%Z in *.
    pose proof (Z.mod_pos_bound n 10 ltac:(lia)) as B. pose proof (Z.div_mod n 10 ltac:(lia)) as D.
    rewrite <- app_assoc. rewrite IH by (split; [apply Z.div_pos; lia|apply Z.div_lt_upper_bound; lia]).
    cbn [app take_digits]. replace (isdigit (48 + n mod 10)) with true by (symmetry; apply isdigit_iff; lia).
    f_equal; lia.
Qed.

Definition ends_number (rest : text) : Prop := match rest with [] => True | c :: _ => isdigit c = false end.

Lemma take_digits_stop : forall rest v j, ends_number rest -> take_digits rest v j = (v, j, rest).
Proof. intros [|c t] v j H; [reflexivity|]. cbn [take_digits]. cbn [ends_number] in H. rewrite H. reflexivity. Qed.

Lemma skip_digit : forall c t, isdigit c = true -> skip_space (c :: t) = c :: t.
Proof.
  intros c t H. apply isdigit_iff in H. cbn [skip_space]. unfold isspace.
  replace ((c =? 32) || ((9 <=? c) && (c <=? 13)))%Z with false; [reflexivity|].
  symmetry. apply orb_false_iff. split; [apply Z.eqb_neq; lia|]. apply andb_false_iff. right. apply Z.leb_gt. lia.
Qed.

Lemma sign_digit : forall c t, isdigit c = true -> take_sign (c :: t) = (false, c :: t).
Proof.
  intros c t H. apply isdigit_iff in H. cbn [take_sign]. rewrite (proj2 (Z.eqb_neq c 45)) by lia. rewrite (proj2 (Z.eqb_neq c 43)) by lia. reflexivity.
Qed.

(** Scanning a mantissa of seven digits and an exponent, with or without a minus sign. *)
Definition number_text (neg : bool) (m e : Z) (w : nat) : text :=
  (if neg then str "-" else []) ++ digits 1 (m / 1000000) ++ str "." ++ digits 6 (m mod 1000000) ++ str "e" ++
  (if (e <? 0)%Z then str "-" else str "+") ++ digits w (Z.abs e).

Lemma scan_number : forall neg m e w rest, (0 <= m < 10000000)%Z -> 0 < w -> (Z.abs e < 10 ^ Z.of_nat w)%Z -> ends_number rest ->
  scan_e (number_text neg m e w ++ rest) = Some (if neg then (- (inject_Z m * qpow 10 (e - 6)))%Q else (inject_Z m * qpow 10 (e - 6))%Q, rest).
Proof.
  intros neg m e w rest Hm Hw He Hr. unfold scan_e, number_text.
  set (d := (m / 1000000)%Z) in *. assert (Hd : (0 <= d < 10)%Z) by (unfold d; split; [apply Z.div_pos; lia|apply Z.div_lt_upper_bound; lia]).
  assert (Hdig : isdigit (48 + d mod 10) = true) by (apply isdigit_iff; pose proof (Z.mod_pos_bound d 10 ltac:(lia)); lia).
  match goal with |- context [take_sign (skip_space ?t)] => assert (S1 : take_sign (skip_space t) = (neg, digits 1 d ++ str "." ++ digits 6 (m mod 1000000) ++ str "e" ++
     (if (e <? 0)%Z then str "-" else str "+") ++ digits w (Z.abs e) ++ rest)) end.
  { rewrite <- !app_assoc. destruct neg.
    - change (str "-") with [45%Z] at 1. cbn [app]. cbn [skip_space]. change (isspace 45) with false. cbn iota. reflexivity.
    - cbn [digits app]. rewrite skip_digit by exact Hdig. rewrite sign_digit by exact Hdig. reflexivity. }
  rewrite S1. clear S1. cbv zeta iota beta.
  rewrite take_digits_digits by (change (10 ^ Z.of_nat 1)%Z with 10%Z; exact Hd). change (0 * 10 ^ Z.of_nat 1 + d)%Z with d.
  rewrite (take_digits_stop (str "." ++ _)) by reflexivity. change (str ".") with [46%Z]. cbn [app]. change ((46 =? 46)%Z) with true. cbn iota.
  pose proof (Z.mod_pos_bound m 1000000 ltac:(lia)) as Bm.
  rewrite take_digits_digits by (change (10 ^ Z.of_nat 6)%Z with 1000000%Z; exact Bm).
  rewrite (take_digits_stop (str "e" ++ _)) by reflexivity.
  replace (d * 10 ^ Z.of_nat 6 + m mod 1000000)%Z with m by (change (10 ^ Z.of_nat 6)%Z with 1000000%Z; unfold d; pose proof (Z.div_mod m 1000000 ltac:(lia)); lia).
  change (str "e") with [101%Z]. cbn [app]. change (0 + 1 + (0 + 6) =? 0) with false. cbn iota. change ((101 =? 101)%Z || (101 =? 69)%Z) with true. cbn iota.
  assert (S2 : take_sign ((if (e <? 0)%Z then str "-" else str "+") ++ digits w (Z.abs e) ++ rest) = ((e <? 0)%Z, digits w (Z.abs e) ++ rest)) by (destruct (e <? 0)%Z; reflexivity).
  rewrite S2. cbv zeta iota beta. rewrite take_digits_digits by lia. rewrite take_digits_stop by exact Hr.
  replace (0 + w =? 0) with false by (symmetry; apply Nat.eqb_neq; lia). cbn [bind fst snd].
  change (Z.of_nat (0 + 6)) with 6%Z. replace (0 * 10 ^ Z.of_nat w + Z.abs e)%Z with (Z.abs e) by lia.
  replace (if (e <? 0)%Z then (- Z.abs e)%Z else Z.abs e) with e by (destruct (Z.ltb_spec e 0); lia).
  reflexivity.
Qed.
