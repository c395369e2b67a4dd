(** Proofs about the precision of printed and scanned numbers. *)
From Coq Require Import QArith Qround Qpower Qabs String Lqa.
From Verif Require Import Common SrcbufModel WordsModel CmdargsModel MucaModel MucaProofs1 DecimalModel DecimalProofs1.
Open Scope list_scope.
Open Scope nat_scope.

Lemma expo_range : forall b x lo hi, (2 <= b)%Z -> (0 < x)%Q -> (qpow b lo <= x)%Q -> (x < qpow b hi)%Q -> (lo <= expo b x < hi)%Z.
Proof.
  intros b x lo hi Hb Hx H1 H2. destruct (expo_spec b x Hb Hx) as [E1 E2]. split.
  - destruct (Z_lt_le_dec (expo b x) lo) as [L|L]; [|exact L]. exfalso.
    pose proof (qpow_le b (expo b x + 1) lo Hb ltac:(lia)). lra.
  - destruct (Z_lt_le_dec (expo b x) hi) as [L|L]; [exact L|]. exfalso.
    pose proof (qpow_le b hi (expo b x) Hb L). lra.
Qed.

(** Rounding [a] to a multiple of b^u. *)
Lemma round_error : forall b a u, (2 <= b)%Z ->
  let r := (inject_Z (nearest_int (a * qpow b (- u))) * qpow b u)%Q in
  (r - a <= (1 # 2) * qpow b u)%Q /\ (a - r <= (1 # 2) * qpow b u)%Q.
Proof.
  intros b a u Hb r. unfold r. set (n := nearest_int (a * qpow b (- u))). destruct (nearest_int_spec (a * qpow b (- u))) as [N1 N2]. fold n in N1, N2.
  pose proof (qpow_pos b u Hb) as P. pose proof (qpow_inv b u Hb) as I.
  assert (E : (a == a * qpow b (- u) * qpow b u)%Q).
  { assert (a * qpow b (- u) * qpow b u == a * (qpow b u * qpow b (- u)))%Q by ring. rewrite H, I. ring. }
  split.
  - assert (G : (0 <= ((1 # 2) - (inject_Z n - a * qpow b (- u))) * qpow b u)%Q) by (apply Qmult_le_0_compat; lra).
    assert (G2 : (((1 # 2) - (inject_Z n - a * qpow b (- u))) * qpow b u == (1 # 2) * qpow b u - inject_Z n * qpow b u + a * qpow b (- u) * qpow b u)%Q) by ring.
    rewrite <- E in G2. lra.
  - assert (G : (0 <= ((1 # 2) - (a * qpow b (- u) - inject_Z n)) * qpow b u)%Q) by (apply Qmult_le_0_compat; lra).
    assert (G2 : (((1 # 2) - (a * qpow b (- u) - inject_Z n)) * qpow b u == (1 # 2) * qpow b u + inject_Z n * qpow b u - a * qpow b (- u) * qpow b u)%Q) by ring.
    rewrite <- E in G2. lra.
Qed.

Lemma qabs_0 : forall x, (x == 0)%Q \/ (0 < qabs x)%Q.
Proof. intros x. destruct (qabs_cases x) as [[H ->]|[H ->]]; [right; lra|]. destruct (Qlt_le_dec 0 x); [right; assumption|left; lra]. Qed.

Definition half_digit : Q := (1 # 2000000)%Q.

(** What "%e" prints: a number within half a unit of the seventh digit. *)
Lemma print_spec : forall x, ((x == 0)%Q \/ ((qpow 10 (-300) <= qabs x)%Q /\ (qabs x < qpow 10 300)%Q)) ->
  exists neg m e w, print_e x = number_text neg m e w /\ (0 <= m < 10000000)%Z /\ 0 < w /\ (Z.abs e < 10 ^ Z.of_nat w)%Z /\
    let v := (if neg then - (inject_Z m * qpow 10 (e - 6)) else inject_Z m * qpow 10 (e - 6))%Q in
    (v - x <= half_digit * qabs x)%Q /\ (x - v <= half_digit * qabs x)%Q.
Proof.
  intros x Hx. unfold print_e. destruct (Qeq_bool x 0) eqn:Ez.
  - apply Qeq_bool_iff in Ez. exists false, 0%Z, 0%Z, 2.
    replace (qlt x 0) with false by (symmetry; apply qlt_false; lra). split; [reflexivity|]. split; [lia|]. split; [lia|]. split; [reflexivity|].
    cbv zeta. assert (Hq : (qabs x == 0)%Q) by (destruct (qabs_cases x) as [[H E]|[H E]]; rewrite E; lra).
    rewrite Hq. assert (inject_Z 0 * qpow 10 (0 - 6) == 0)%Q by reflexivity. split; lra.
  - destruct Hx as [Hx|[B1 B2]]; [apply Qeq_bool_neq in Ez; contradiction|].
    set (a := qabs x) in *. assert (Ha : (0 < a)%Q) by (pose proof (qpow_pos 10 (-300) ltac:(lia)); lra).
    destruct (expo_spec 10 a ltac:(lia) Ha) as [E1 E2]. pose proof (expo_range 10 a (-300) 300 ltac:(lia) Ha B1 B2) as Er.
    set (e := expo 10 a) in *.
    pose proof (round_error 10 a (e - 6) ltac:(lia)) as R. cbv zeta in R. replace (- (e - 6))%Z with (6 - e)%Z in R by lia.
    assert (M : (1000000 <= nearest_int (a * qpow 10 (6 - e)) <= 10000000)%Z).
    { pose proof (qpow_pos 10 (6 - e) ltac:(lia)) as P. apply nearest_int_bounds.
      - assert (G : (0 <= (a - qpow 10 e) * qpow 10 (6 - e))%Q) by (apply Qmult_le_0_compat; lra).
        assert (G2 : (qpow 10 e * qpow 10 (6 - e) == inject_Z 1000000)%Q) by (rewrite <- qpow_plus by lia; replace (e + (6 - e))%Z with 6%Z by lia; reflexivity).
        assert (G3 : ((a - qpow 10 e) * qpow 10 (6 - e) == a * qpow 10 (6 - e) - qpow 10 e * qpow 10 (6 - e))%Q) by ring. rewrite G2 in G3. lra.
      - assert (G : (0 <= (qpow 10 (e + 1) - a) * qpow 10 (6 - e))%Q) by (apply Qmult_le_0_compat; lra).
        assert (G2 : (qpow 10 (e + 1) * qpow 10 (6 - e) == inject_Z 10000000)%Q) by (rewrite <- qpow_plus by lia; replace (e + 1 + (6 - e))%Z with 7%Z by lia; reflexivity).
        assert (G3 : ((qpow 10 (e + 1) - a) * qpow 10 (6 - e) == qpow 10 (e + 1) * qpow 10 (6 - e) - a * qpow 10 (6 - e))%Q) by ring. rewrite G2 in G3. lra. }
    set (m := nearest_int (a * qpow 10 (6 - e))) in *.
    assert (Hh : ((1 # 2) * qpow 10 (e - 6) <= half_digit * a)%Q).
    { assert (G : (qpow 10 (e - 6) == (1 # 1000000) * qpow 10 e)%Q).
      { replace (e - 6)%Z with (-6 + e)%Z by lia. rewrite qpow_plus by lia. reflexivity. }
      rewrite G. unfold half_digit. lra. }
    assert (H2 : exists m' e', (if (m =? 10000000)%Z then (1000000%Z, (e + 1)%Z) else (m, e)) = (m', e') /\ (0 <= m' < 10000000)%Z /\ (-300 <= e' <= 300)%Z /\
       (inject_Z m' * qpow 10 (e' - 6) == inject_Z m * qpow 10 (e - 6))%Q).
    { destruct (Z.eqb_spec m 10000000) as [->|Hne].
      - exists 1000000%Z, (e + 1)%Z. split; [reflexivity|]. split; [lia|]. split; [lia|]. replace (e + 1 - 6)%Z with (1 + (e - 6))%Z by lia.
        rewrite qpow_plus by lia. change (qpow 10 1) with (inject_Z 10). rewrite Qmult_assoc. rewrite <- inject_Z_mult. reflexivity.
      - exists m, e. split; [reflexivity|]. split; [lia|]. split; [lia|]. reflexivity. }
    destruct H2 as [m' [e' [H2 [Hm' [He' Hv]]]]]. rewrite H2.
    exists (qlt x 0), m', e', (if (Z.abs e' <? 100)%Z then 2 else 3). split.
    { unfold number_text. destruct (qlt x 0); reflexivity. }
    split; [exact Hm'|]. split; [destruct (Z.abs e' <? 100)%Z; lia|]. split.
    { destruct (Z.ltb_spec (Z.abs e') 100) as [L|L]; [change (10 ^ Z.of_nat 2)%Z with 100%Z|change (10 ^ Z.of_nat 3)%Z with 1000%Z]; lia. }
    cbv zeta. unfold a, qabs in *. destruct (qlt x 0); rewrite Hv; split; lra.
Qed.

(** The nearest float of a number in the range of normalised floats. *)
Lemma to_float_spec : forall x, (qpow 2 (-126) <= qabs x)%Q -> (qabs x < qpow 2 127)%Q ->
  exists r, to_float x = Some r /\ (r - x <= (1 # 16777216) * qabs x)%Q /\ (x - r <= (1 # 16777216) * qabs x)%Q.
Proof.
  intros x B1 B2. unfold to_float. set (a := qabs x) in *. assert (Ha : (0 < a)%Q) by (pose proof (qpow_pos 2 (-126) ltac:(lia)); lra).
  destruct (Qeq_bool x 0) eqn:Ez.
  { apply Qeq_bool_iff in Ez. exfalso. unfold a in Ha. destruct (qabs_cases x) as [[H E]|[H E]]; rewrite E in Ha; lra. }
  destruct (expo_spec 2 a ltac:(lia) Ha) as [E1 E2]. pose proof (expo_range 2 a (-126) 127 ltac:(lia) Ha B1 B2) as Er.
  set (k := expo 2 a) in *. rewrite Z.max_l by lia.
  pose proof (round_error 2 a (k - 23) ltac:(lia)) as R. cbv zeta in R.
  set (r := (inject_Z (nearest_int (a * qpow 2 (- (k - 23)))) * qpow 2 (k - 23))%Q) in *.
  assert (Hh : ((1 # 2) * qpow 2 (k - 23) <= (1 # 16777216) * a)%Q).
  { assert (G : (qpow 2 (k - 23) == (1 # 8388608) * qpow 2 k)%Q) by (replace (k - 23)%Z with (-23 + k)%Z by lia; rewrite qpow_plus by lia; reflexivity).
    rewrite G. lra. }
  replace (qle (qpow 2 128) r) with false.
  2: { symmetry. apply qle_false. assert (G : (qpow 2 128 == 2 * qpow 2 127)%Q) by (change 128%Z with (1 + 127)%Z; rewrite qpow_plus by lia; reflexivity). lra. }
  eexists. split; [reflexivity|]. unfold a, qabs in *. destruct (qlt x 0); split; lra.
Qed.

Lemma to_float_zero : forall x, (x == 0)%Q -> to_float x = Some 0%Q.
Proof. intros x H. unfold to_float. apply Qeq_bool_iff in H. rewrite H. reflexivity. Qed.

Lemma qabs_Qabs : forall x, (qabs x == Qabs x)%Q.
Proof.
  intros x. destruct (qabs_cases x) as [[H ->]|[H ->]].
  - rewrite Qabs_neg by lra. reflexivity.
  - rewrite Qabs_pos by lra. reflexivity.
Qed.
