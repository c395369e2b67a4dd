(** Multiplication by an integer. *)
From Coq Require Import Znumtheory.
From Verif Require Import Common ExtendedModel ExtendedSpec ExtendedProofs1 ExtendedProofs2.
Open Scope Z_scope.


Lemma limit_max : forall t, 2 <= bits t -> 0 < limit t /\ limit t <= int_max t.
Proof.
  intros t H. unfold limit, int_max. destruct (is_signed t).
  - assert (G := pow_pos (bits t - 2) ltac:(lia)). replace (bits t - 1) with (Z.succ (bits t - 2)) by lia. rewrite Z.pow_succ_r by lia. lia.
  - assert (G := pow_pos (bits t - 1) ltac:(lia)). assert (E : 2 ^ bits t = 2 * 2 ^ (bits t - 1)) by (rewrite <- Z.pow_succ_r by lia; f_equal; lia). lia.
Qed.

Lemma arith_ok : forall t z, 2 <= bits t -> 0 <= z <= int_max t -> arith t z = Some z.
Proof.
  intros t z H Hz. unfold arith, int_min, int_max in *. destruct (is_signed t).
  - assert (G := pow_pos (bits t - 1) ltac:(lia)). destruct (Z.leb_spec (- 2 ^ (bits t - 1)) z), (Z.leb_spec z (2 ^ (bits t - 1) - 1)); try lia. reflexivity.
  - now rewrite Z.mod_small by lia.
Qed.

Lemma largest_ok : forall t rhs, 2 <= bits t -> rhs <= limit t -> forall f j, 0 <= j -> 2 ^ j < rhs -> rhs <= 2 ^ (j + Z.of_nat f) ->
  exists i, j <= i /\ largest f t rhs (2 ^ j) = Some (Some (2 ^ i)) /\ 2 ^ i < rhs <= 2 ^ (i + 1).
Proof.
  intros t rhs Hb Hl. destruct (limit_max t Hb) as [L0 L1]. induction f as [|f IH]; intros j Hj H1 H2.
  - replace (j + Z.of_nat 0) with j in H2 by lia. lia.
  - cbn [largest]. assert (Hdbl : 2 * 2 ^ j = 2 ^ (j + 1)) by (rewrite Z.pow_add_r by lia; change (2 ^ 1) with 2; lia).
    assert (Hle : 2 ^ (j + 1) <= limit t).
    { unfold limit in *. destruct (is_signed t); apply pow_mono; (split; [lia|]).
      - assert (j < bits t - 2) by (apply (Z.pow_lt_mono_r_iff 2); lia). lia.
      - assert (j < bits t - 1) by (apply (Z.pow_lt_mono_r_iff 2); lia). lia. }
    assert (P := pow_pos (j + 1) ltac:(lia)). rewrite Hdbl, arith_ok by (assumption || lia).
    destruct (Z.ltb_spec (2 ^ (j + 1)) rhs) as [H|H].
    + rewrite (Z.mul_comm (2 ^ j) 2), Hdbl, arith_ok by (assumption || lia).
      destruct (IH (j + 1) ltac:(lia) H ltac:(replace (j + 1 + Z.of_nat f) with (j + Z.of_nat (S f)) by lia; exact H2)) as (i & I1 & I2 & I3).
      exists i. split; [lia|]. auto.
    + exists j. split; [lia|]. split; [reflexivity|lia].
Qed.

(** ** Powers of two *)
Lemma double_pow : forall v j, fits 53 v -> 0 <= j -> fits 53 (v * 2 ^ j).
Proof. intros v j (m & e & He & Hm & ->) Hj. exists m, (e + j). split; [lia|]. split; [exact Hm|]. rewrite Z.pow_add_r by lia. ring. Qed.

Lemma scale_ok : forall x j, doubles x -> 0 <= j -> 2 ^ j * magnitude x <= big ->
  scale x (2 ^ j) = Some (multiple (2 ^ j) x) /\ doubles (multiple (2 ^ j) x).
Proof.
  intros x j (D1 & D2 & D3) Hj Hm. assert (P := pow_pos j Hj). assert (Hb := big_pos). assert (Ho := overflow_big). unfold magnitude in Hm.
  assert (Ha : forall v, Z.abs v <= Z.abs (value x) + Z.abs (compensation x) + Z.abs (compensation2 x) -> Z.abs (v * 2 ^ j) < overflow_at).
  { intros v Hv. rewrite Z.abs_mul, (Z.abs_eq (2 ^ j)) by lia. assert (Z.abs v * 2 ^ j <= big); [|lia]. eapply Z.le_trans; [|exact Hm].
    rewrite Z.mul_comm. apply Z.mul_le_mono_nonneg_l; lia. }
  assert (A1 := Ha (value x) ltac:(lia)). assert (A2 := Ha (compensation x) ltac:(lia)). assert (A3 := Ha (compensation2 x) ltac:(lia)).
  assert (F1 := double_pow _ j (proj1 D1) Hj). assert (F2 := double_pow _ j (proj1 D2) Hj). assert (F3 := double_pow _ j (proj1 D3) Hj).
  unfold scale, fmul, bind. rewrite (rounded_id _ F1 A1), (rounded_id _ F2 A2), (rounded_id _ F3 A3). unfold multiple.
  rewrite !(Z.mul_comm (2 ^ j)). split; [reflexivity|]. split; [|split]; apply is_double_eq; cbn [value compensation compensation2]; auto.
Qed.

Lemma multiple_grain : forall u k x, grain u x -> grain u (multiple k x).
Proof. intros u k x (G1 & G2 & G3). split; [|split]; cbn [value compensation compensation2 multiple]; now apply Z.divide_mul_r. Qed.

Lemma multiple_total : forall k x, total (multiple k x) = k * total x.
Proof. intros. unfold total, multiple. cbn [value compensation compensation2]. ring. Qed.

Lemma multiple_magnitude : forall k x, 0 <= k -> magnitude (multiple k x) = k * magnitude x.
Proof. intros k x Hk. unfold magnitude, multiple. cbn [value compensation compensation2]. rewrite !Z.abs_mul, (Z.abs_eq k Hk). ring. Qed.

Lemma magnitude_nonneg : forall x, 0 <= magnitude x.
Proof. intros. unfold magnitude. lia. Qed.

(** The numbers added by the loop. *)
Lemma add_multiples_ok : forall t a u, 2 <= bits t -> doubles a -> grain u a -> forall f rhs this,
  1 <= rhs <= limit t -> rhs <= 2 ^ Z.of_nat f -> rhs * magnitude a <= big ->
  exists l, Forall is_double l /\ Forall (fun d => (2 ^ u | d)) l /\ zsum l = (rhs - 1) * total a /\
    abs_sum l = (rhs - 1) * magnitude a /\ Z.of_nat (length l) <= 3 * Z.of_nat f /\
    (forall y, add_list this l = Some y -> add_multiples (S f) t a this rhs = Done y).
Proof.
  intros t a u Hb Da Ga. induction f as [|f IH]; intros rhs this Hr Hf Hm.
  - cbn in Hf. assert (rhs = 1) by lia. subst. exists []. split; [constructor|]. split; [constructor|]. split; [cbn; lia|]. split; [cbn; lia|].
    split; [cbn; lia|]. cbn [add_list]. intros y E. injection E as <-. reflexivity.
  - destruct (Z.eq_dec rhs 1) as [->|H1].
    + exists []. split; [constructor|]. split; [constructor|]. split; [cbn [zsum fold_right]; lia|]. split; [unfold abs_sum; cbn [zsum fold_right map]; lia|].
      split; [cbn [length]; lia|]. cbn [add_list]. intros y E. injection E as <-. reflexivity.
    + change (add_multiples (S (S f)) t a this rhs) with
        (if 1 <? rhs then
           match largest (S (S f)) t rhs 1 with
           | None => OutOfFuel
           | Some None => Overflow
           | Some (Some mult) =>
               match scale a mult with
               | None => Infinite
               | Some b => match add_ep this b with
                           | None => Infinite
                           | Some this' => match arith t (rhs - mult) with
                                           | None => Overflow
                                           | Some rhs' => add_multiples (S f) t a this' rhs'
                                           end
                           end
               end
           end
         else Done this).
      destruct (largest_ok t rhs Hb (proj2 Hr) (S (S f)) 0 ltac:(lia)) as (i & I1 & I2 & I3).
      { cbn. lia. } { eapply Z.le_trans; [exact Hf|]. apply pow_mono. lia. }
      change (2 ^ 0) with 1 in I2. rewrite I2. replace (1 <? rhs) with true by (symmetry; apply Z.ltb_lt; lia).
      assert (P := pow_pos i ltac:(lia)). assert (M0 := magnitude_nonneg a).
      assert (Hi2 : 2 ^ (i + 1) = 2 * 2 ^ i) by (rewrite Z.pow_add_r by lia; change (2 ^ 1) with 2; lia).
      assert (HM : 2 ^ i * magnitude a <= big) by (eapply Z.le_trans; [|exact Hm]; apply Z.mul_le_mono_nonneg_r; lia).
      destruct (scale_ok a i Da ltac:(lia) HM) as [S1 S2]. rewrite S1.
      destruct (limit_max t Hb) as [L0 L1]. rewrite arith_ok by (assumption || lia).
      assert (Hif : i <= Z.of_nat f).
      { assert (i < Z.of_nat (S f)) by (apply (Z.pow_lt_mono_r_iff 2); lia). lia. }
      assert (Hrhs : 1 <= rhs - 2 ^ i <= limit t) by lia. assert (Hf' : rhs - 2 ^ i <= 2 ^ Z.of_nat f) by (assert (G := pow_mono i (Z.of_nat f) ltac:(lia)); lia).
      assert (HM' : (rhs - 2 ^ i) * magnitude a <= big) by (eapply Z.le_trans; [|exact Hm]; apply Z.mul_le_mono_nonneg_r; lia).
      set (b := multiple (2 ^ i) a) in *. set (l0 := [compensation2 b; compensation b; value b]).
      destruct (add_ep this b) as [this'|] eqn:Ea.
      * destruct (IH (rhs - 2 ^ i) this' Hrhs Hf' HM') as (l & F1 & F2 & F3 & F4 & F5 & F6). exists (l0 ++ l).
        destruct S2 as (B1 & B2 & B3). destruct (multiple_grain u (2 ^ i) a Ga) as (C1 & C2 & C3). fold b in C1, C2, C3.
        split; [apply Forall_app; split; [unfold l0; auto|exact F1]|]. split; [apply Forall_app; split; [unfold l0; auto|exact F2]|].
        split; [rewrite zsum_app, F3; unfold l0; cbn [zsum fold_right]; unfold b, multiple, total; cbn [value compensation compensation2]; ring|].
        split.
        { unfold abs_sum in *. rewrite map_app, zsum_app, F4. unfold l0, b, multiple, magnitude. cbn [zsum fold_right value compensation compensation2 map].
          rewrite !Z.abs_mul, (Z.abs_eq (2 ^ i)) by lia. ring. }
        split; [rewrite app_length, Nat2Z.inj_add; unfold l0; cbn [length]; lia|].
        rewrite add_list_app. unfold l0. rewrite <- add_ep_list, Ea. cbn [bind]. exact F6.
      * destruct (IH (rhs - 2 ^ i) this Hrhs Hf' HM') as (l & F1 & F2 & F3 & F4 & F5 & F6). exists (l0 ++ l).
        destruct S2 as (B1 & B2 & B3). destruct (multiple_grain u (2 ^ i) a Ga) as (C1 & C2 & C3). fold b in C1, C2, C3.
        split; [apply Forall_app; split; [unfold l0; auto|exact F1]|]. split; [apply Forall_app; split; [unfold l0; auto|exact F2]|].
        split; [rewrite zsum_app, F3; unfold l0; cbn [zsum fold_right]; unfold b, multiple, total; cbn [value compensation compensation2]; ring|].
        split.
        { unfold abs_sum in *. rewrite map_app, zsum_app, F4. unfold l0, b, multiple, magnitude. cbn [zsum fold_right value compensation compensation2 map].
          rewrite !Z.abs_mul, (Z.abs_eq (2 ^ i)) by lia. ring. }
        split; [rewrite app_length, Nat2Z.inj_add; unfold l0; cbn [length]; lia|].
        rewrite add_list_app. unfold l0. rewrite <- add_ep_list, Ea. cbn [bind]. intros y. discriminate.
Qed.

(** ** The powers of two taken out first *)
Lemma halve_ok : forall t, 2 <= bits t -> forall f rhs mult, 0 < rhs < 2 ^ Z.of_nat f -> 0 < mult -> rhs * mult <= int_max t ->
  exists o j, 0 <= j /\ rhs = o * 2 ^ j /\ Z.odd o = true /\ 0 < o /\ halve f t rhs mult = Some (Some (o, mult * 2 ^ j)).
Proof.
  intros t Hb. induction f as [|f IH]; intros rhs mult Hr Hm Hmax; [cbn in Hr; lia|].
  cbn [halve]. destruct (Z.eqb_spec (rhs mod 2) 0) as [E|E].
  - assert (Hd := Z.div_mod rhs 2 ltac:(lia)). rewrite E in Hd. rewrite Nat2Z.inj_succ, Z.pow_succ_r in Hr by lia.
    assert (H2 : mult * 2 <= rhs * mult) by (rewrite (Z.mul_comm mult 2); apply Z.mul_le_mono_nonneg_r; lia).
    rewrite arith_ok by (assumption || lia).
    destruct (IH (rhs / 2) (mult * 2)) as (o & j & J1 & J2 & J3 & J4 & J5); [lia|lia| |].
    + replace (rhs / 2 * (mult * 2)) with (rhs * mult) by (rewrite Hd at 1; ring). exact Hmax.
    + exists o, (j + 1). split; [lia|]. assert (E2 : 2 ^ (j + 1) = 2 * 2 ^ j) by (rewrite Z.pow_add_r by lia; change (2 ^ 1) with 2; lia).
      rewrite E2. split; [rewrite Hd at 1; rewrite J2; ring|]. split; [exact J3|]. split; [exact J4|]. rewrite J5. do 3 f_equal. ring.
  - exists rhs, 0. split; [lia|]. split; [cbn; lia|]. split; [|split; [lia|do 3 f_equal; cbn; lia]].
    rewrite Zmod_odd in E. destruct (Z.odd rhs); [reflexivity|congruence].
Qed.

Lemma odd_part_unique : forall k o o', odd_part k o -> odd_part k o' -> o = o'.
Proof.
  assert (forall o o' j j', Z.odd o = true -> Z.odd o' = true -> 0 <= j <= j' -> o * 2 ^ j = o' * 2 ^ j' -> o = o') as H.
  { intros o o' j j' Ho Ho' Hj E. assert (P := pow_pos j ltac:(lia)). rewrite (pow_split j j') in E by lia.
    assert (Eo : o = o' * 2 ^ (j' - j)) by (apply (Z.mul_reg_r _ _ (2 ^ j)); [lia|rewrite E; ring]).
    destruct (Z.eq_dec j j') as [->|Hn]; [rewrite Eo, Z.sub_diag; cbn; lia|]. exfalso.
    rewrite Eo, Z.odd_mul in Ho. rewrite Z.odd_pow in Ho by lia. cbn in Ho. rewrite Bool.andb_false_r in Ho. discriminate. }
  intros k o o' (Ho & j & Hj & E) (Ho' & j' & Hj' & E'). rewrite E in E'.
  destruct (Z_le_gt_dec j j') as [G|G]; [apply (H o o' j j'); auto; lia|symmetry; apply (H o' o j' j); auto; lia].
Qed.

Lemma room_mono : forall u n s x y, 0 <= n -> Z.abs (value x) <= Z.abs (value y) -> Z.abs (compensation x) <= Z.abs (compensation y) ->
  Z.abs (compensation2 x) <= Z.abs (compensation2 y) -> room u n s y -> room u n s x.
Proof.
  intros u n s x y Hn H1 H2 H3 HR. unfold room in *. eapply Z.le_trans; [|exact HR].
  apply Z.add_le_mono; [apply Z.mul_le_mono_nonneg_l; [discriminate|exact H3]|].
  apply Z.mul_le_mono_nonneg_l; [exact Hn|]. apply Z.add_le_mono; [apply Z.mul_le_mono_nonneg_l; [discriminate|exact H2]|].
  apply Z.mul_le_mono_nonneg_l; lia.
Qed.

Lemma neg_doubles : forall y, doubles y -> doubles (neg_ep y).
Proof.
  intros y (D1 & D2 & D3). split; [|split]; cbn [value compensation compensation2 neg_ep];
    [destruct D1 as [F B]|destruct D2 as [F B]|destruct D3 as [F B]]; (split; [now apply fits_opp|now rewrite Z.abs_opp]).
Qed.

(** The whole multiplication of a positive number. *)
Lemma times_pos : forall t x u K fuel, 2 <= bits t -> 0 <= u -> doubles x -> grain u x -> 0 < K <= int_max t ->
  (forall o, odd_part K o -> o <= limit t) -> room u (3 * bits t) (K * magnitude x) (multiple K x) -> 3 * (K * magnitude x) <= big ->
  bits t < Z.of_nat fuel ->
  exists a o y, halve fuel t K 1 = Some (Some (o, a)) /\
    (match scale x a with None => Infinite | Some a => add_multiples fuel t a a o end) = Done y /\ doubles y /\ total y = K * total x.
Proof.
  intros t x u K fuel Hb Hu Dx Gx HK Hodd HR Hbig Hfuel.
  assert (HKb : K < 2 ^ bits t).
  { unfold int_max in HK. assert (G := pow_mono (bits t - 1) (bits t) ltac:(lia)). destruct (is_signed t); lia. }
  destruct (halve_ok t Hb fuel K 1) as (o & j & J1 & J2 & J3 & J4 & J5); [|lia|lia|].
  { split; [lia|]. eapply Z.lt_le_trans; [exact HKb|]. apply pow_mono. lia. }
  rewrite Z.mul_1_l in J5. exists (2 ^ j), o. assert (P := pow_pos j J1). assert (M0 := magnitude_nonneg x).
  assert (Ho := Hodd o (conj J3 (ex_intro _ j (conj J1 J2)))).
  assert (Hj : 2 ^ j <= K) by nia.
  assert (HM : 2 ^ j * magnitude x <= K * magnitude x) by (apply Z.mul_le_mono_nonneg_r; lia).
  assert (HM0 : 0 <= 2 ^ j * magnitude x) by (apply Z.mul_nonneg_nonneg; lia).
  destruct (scale_ok x j Dx J1 ltac:(lia)) as [S1 S2]. rewrite S1. set (a := multiple (2 ^ j) x) in *.
  assert (Ma : magnitude a = 2 ^ j * magnitude x) by (apply multiple_magnitude; lia).
  assert (MK : o * magnitude a = K * magnitude x) by (rewrite Ma, J2; ring).
  destruct fuel as [|f]; [lia|].
  assert (Hob : o <= 2 ^ Z.of_nat (Z.to_nat (bits t))).
  { rewrite Z2Nat.id by lia. nia. }
  assert (Hmono : forall g f' this rhs y, add_multiples g t a this rhs = Done y -> (g <= f')%nat -> add_multiples f' t a this rhs = Done y).
  { clear. assert (Hl : forall g f' rhs m v, largest g t rhs m = Some v -> (g <= f')%nat -> largest f' t rhs m = Some v).
    { induction g as [|g IH]; intros f' rhs m v E Hle; [discriminate|]. destruct f' as [|f']; [lia|]. cbn [largest] in *.
      destruct (arith t (2 * m)) as [m2|]; [|exact E]. destruct (m2 <? rhs); [|exact E]. destruct (arith t (m * 2)); [|exact E]. apply IH; [exact E|lia]. }
    induction g as [|g IH]; intros f' this rhs y E Hle; [discriminate|]. destruct f' as [|f']; [lia|].
    change (add_multiples (S f') t a this rhs) with
      (if 1 <? rhs then match largest (S f') t rhs 1 with None => OutOfFuel | Some None => Overflow
         | Some (Some mult) => match scale a mult with None => Infinite | Some b => match add_ep this b with None => Infinite
            | Some this' => match arith t (rhs - mult) with None => Overflow | Some rhs' => add_multiples f' t a this' rhs' end end end end else Done this).
    change (add_multiples (S g) t a this rhs) with
      (if 1 <? rhs then match largest (S g) t rhs 1 with None => OutOfFuel | Some None => Overflow
         | Some (Some mult) => match scale a mult with None => Infinite | Some b => match add_ep this b with None => Infinite
            | Some this' => match arith t (rhs - mult) with None => Overflow | Some rhs' => add_multiples g t a this' rhs' end end end end else Done this) in E.
    destruct (1 <? rhs); [|exact E].
    destruct (largest (S g) t rhs 1) as [v|] eqn:El; [|discriminate]. rewrite (Hl (S g) (S f') rhs 1 v El Hle).
    destruct v as [mult|]; [|discriminate]. destruct (scale a mult) as [b|]; [|discriminate]. destruct (add_ep this b) as [this'|]; [|discriminate].
    destruct (arith t (rhs - mult)) as [rhs'|]; [|discriminate]. apply IH; [exact E|lia]. }
  assert (Ga := multiple_grain u (2 ^ j) x Gx). fold a in Ga.
  destruct (add_multiples_ok t a u Hb S2 Ga (Z.to_nat (bits t)) o a ltac:(lia) Hob ltac:(lia)) as (l & F1 & F2 & F3 & F4 & F5 & F6).
  assert (M0a := magnitude_nonneg a).
  assert (Q1 : (o - 1) * magnitude a <= K * magnitude x) by lia.
  assert (Q2 : magnitude a <= K * magnitude x) by (rewrite Ma; exact HM).
  assert (Q0 : 0 <= (o - 1) * magnitude a) by (apply Z.mul_nonneg_nonneg; lia).
  assert (Hfin : exists y, add_list a l = Some y /\ doubles y).
  { apply add_list_some; [exact S2|exact F1| | |]; rewrite F4; clear - Hbig Q0 Q1 Q2; unfold magnitude in Q2 at 1; lia. }
  destruct Hfin as (y & Ey & Dy). exists y. split; [exact J5|]. split; [apply (Hmono (S (Z.to_nat (bits t)))); [now apply F6|lia]|]. split; [exact Dy|].
  destruct (add_list_exact l u a y Hu S2 F1 Ga F2) as [T _]; [|exact Ey|].
  - apply (room_less u (3 * bits t) (K * magnitude x)); [lia|split; [apply abs_sum_nonneg|rewrite F4; exact Q1]|].
    apply (room_mono u _ _ a (multiple K x)); [lia| | | |exact HR]; unfold a, multiple; cbn [value compensation compensation2];
      rewrite !Z.abs_mul, (Z.abs_eq K), (Z.abs_eq (2 ^ j)) by lia; apply Z.mul_le_mono_nonneg_r; lia.
  - rewrite T, F3, J2. unfold a. rewrite multiple_total. ring.
Qed.

(** ** Where it fails *)
Lemma largest_overflow : forall t rhs, is_signed t = true -> 2 <= bits t -> limit t < rhs -> forall f j, 0 <= j <= bits t - 2 -> bits t - 2 - j < Z.of_nat f ->
  largest f t rhs (2 ^ j) = Some None.
Proof.
  intros t rhs Hs Hb Hl. unfold limit in Hl. rewrite Hs in Hl. induction f as [|f IH]; intros j Hj Hf; [lia|]. cbn [largest].
  assert (Hdbl : 2 * 2 ^ j = 2 ^ (j + 1)) by (rewrite Z.pow_add_r by lia; change (2 ^ 1) with 2; lia). assert (P := pow_pos (j + 1) ltac:(lia)).
  assert (Hmax : int_max t = 2 ^ (bits t - 1) - 1) by (unfold int_max; now rewrite Hs).
  destruct (Z.eq_dec j (bits t - 2)) as [->|Hn].
  - rewrite Hdbl. unfold arith. rewrite Hs, Hmax. replace (bits t - 2 + 1) with (bits t - 1) by lia.
    destruct (Z.leb_spec (2 ^ (bits t - 1)) (2 ^ (bits t - 1) - 1)); [lia|]. now rewrite Bool.andb_false_r.
  - assert (M := pow_mono (j + 1) (bits t - 2) ltac:(lia)). assert (M' := Z.pow_lt_mono_r 2 (bits t - 2) (bits t - 1) ltac:(lia) ltac:(lia) ltac:(lia)).
    rewrite Hdbl, arith_ok by (assumption || lia). replace (2 ^ (j + 1) <? rhs) with true by (symmetry; apply Z.ltb_lt; lia).
    rewrite (Z.mul_comm (2 ^ j) 2), Hdbl, arith_ok by (assumption || lia). apply IH; lia.
Qed.

Lemma largest_forever : forall t rhs, is_signed t = false -> 2 <= bits t -> limit t < rhs -> forall f,
  largest f t rhs 0 = None /\ forall j, 0 <= j <= bits t - 1 -> largest f t rhs (2 ^ j) = None.
Proof.
  intros t rhs Hs Hb Hl. unfold limit in Hl. rewrite Hs in Hl. assert (P0 := pow_pos (bits t - 1) ltac:(lia)).
  assert (Hmax : int_max t = 2 ^ bits t - 1) by (unfold int_max; now rewrite Hs).
  assert (Hw : 2 ^ bits t = 2 * 2 ^ (bits t - 1)) by (rewrite <- Z.pow_succ_r by lia; f_equal; lia).
  induction f as [|f [IH0 IH]]; [split; reflexivity|]. assert (Hz : arith t 0 = Some 0) by (apply arith_ok; [assumption|lia]). split.
  - cbn [largest Z.mul]. rewrite Hz. replace (0 <? rhs) with true by (symmetry; apply Z.ltb_lt; lia). exact IH0.
  - intros j Hj. cbn [largest]. assert (Hdbl : 2 * 2 ^ j = 2 ^ (j + 1)) by (rewrite Z.pow_add_r by lia; change (2 ^ 1) with 2; lia). assert (P := pow_pos (j + 1) ltac:(lia)).
    rewrite (Z.mul_comm (2 ^ j) 2), Hdbl. destruct (Z.eq_dec j (bits t - 1)) as [->|Hn].
    + assert (Ha : arith t (2 ^ (bits t - 1 + 1)) = Some 0).
      { unfold arith. rewrite Hs. replace (bits t - 1 + 1) with (bits t) by lia. rewrite Z_mod_same by lia. reflexivity. }
      rewrite Ha. replace (0 <? rhs) with true by (symmetry; apply Z.ltb_lt; lia). exact IH0.
    + assert (M := pow_mono (j + 1) (bits t - 1) ltac:(lia)). rewrite arith_ok by (assumption || lia).
      replace (2 ^ (j + 1) <? rhs) with true by (symmetry; apply Z.ltb_lt; lia). apply IH. lia.
Qed.

Lemma scale_one : forall x, doubles x -> scale x 1 = Some x.
Proof.
  intros x (D1 & D2 & D3). unfold scale, fmul, bind. rewrite !Z.mul_1_r.
  rewrite (rounded_id _ (proj1 D1) (proj2 D1)), (rounded_id _ (proj1 D2) (proj2 D2)), (rounded_id _ (proj1 D3) (proj2 D3)). now destruct x.
Qed.

Lemma halve_odd : forall f t rhs mult, Z.odd rhs = true -> halve (S f) t rhs mult = Some (Some (rhs, mult)).
Proof. intros f t rhs mult H. cbn [halve]. rewrite Zmod_odd, H. reflexivity. Qed.
