(** C34: ExtendedPrecision. *)
From Coq Require Import Znumtheory Permutation.
From Verif Require Import Common ExtendedModel ExtendedSpec ExtendedProofs1 ExtendedProofs2 ExtendedProofs3.
Open Scope Z_scope.

(** One addition: value and compensation change by the added number up to [cc], which is
    added to the second compensation with one rounding. *)
Theorem C34_add : forall x d y, doubles x -> is_double d -> add_double x d = Some y ->
  doubles y /\ nearest_double (value x + d) (value y) /\
  exists cc, is_double cc /\ value y + compensation y + cc = value x + compensation x + d /\
    nearest_double (compensation2 x + cc) (compensation2 y) /\
    2 ^ 53 * Z.abs (total y - (total x + d)) <= Z.abs (compensation2 x + cc).
Proof.
  intros x d y Dx Dd E. destruct (add_double_some x d y Dx Dd E) as (Dy & c & cc & Dcc & V & C & K & CC & R).
  split; [exact Dy|]. split.
  - split; [apply Dy|]. intros g [Hg _]. rewrite V. apply rnd_nearest; [lia|exact Hg].
  - exists cc. split; [exact Dcc|]. split; [clear - C CC; lia|]. split; [now apply rounded_nearest|].
    apply rounded_some in R. destruct R as [R _]. assert (G := rnd_error 53 ltac:(lia) (compensation2 x + cc)). rewrite <- R in G.
    replace (total y - (total x + d)) with (compensation2 y - (compensation2 x + cc)) by (unfold total; clear - C CC; lia). exact G.
Qed.
Print Assumptions C34_add.

(** A sum is exact as long as 159 bits are enough. *)
Theorem C34_sum : forall l u x, 0 <= u -> doubles x -> Forall is_double l -> grain u x -> Forall (fun d => (2 ^ u | d)) l ->
  room u (Z.of_nat (length l)) (abs_sum l) x -> moderate (abs_sum l) x ->
  exists y, add_list x l = Some y /\ doubles y /\ total y = total x + zsum l.
Proof.
  intros l u x Hu Dx Dl Gx Gl HR HM. unfold moderate, magnitude in HM. assert (Hs := abs_sum_nonneg l).
  destruct (add_list_some l x Dx Dl) as (y & E & Dy); try (change (2 ^ 2096) with big in HM; lia).
  exists y. split; [exact E|]. split; [exact Dy|]. now apply (add_list_exact l u x y).
Qed.
Print Assumptions C34_sum.

Theorem C34_sum_from_zero : forall l u, 0 <= u <= 1900 -> Forall is_double l -> Forall (fun d => (2 ^ u | d)) l -> l <> [] ->
  4 * Z.of_nat (length l) ^ 2 * abs_sum l <= 2 ^ (159 + u) ->
  exists y, add_list (of_double 0) l = Some y /\ doubles y /\ total y = zsum l.
Proof.
  intros l u Hu Dl Gl Hn HR. assert (Hs := abs_sum_nonneg l).
  assert (D0 : is_double 0) by (split; [apply (fits_0 53); lia|apply pow_pos; lia]).
  destruct (C34_sum l u (of_double 0)) as (y & E & Dy & T); [lia|split; auto|exact Dl|split; [|split]; apply Z.divide_0_r|exact Gl| | |].
  - unfold room. cbn [of_double value compensation compensation2 Z.abs]. rewrite !Z.mul_0_r. eapply Z.le_trans; [|exact HR]. apply Z.eq_le_incl. ring.
  - unfold moderate, magnitude. cbn [of_double value compensation compensation2 Z.abs]. assert (H : 2 ^ (159 + u) <= 2 ^ 2096) by (apply pow_mono; lia).
    assert (H1 : 1 <= Z.of_nat (length l)) by (destruct l; [congruence|cbn [length]; lia]). rewrite Z.pow_2_r in HR.
    set (B := 2 ^ 2096) in *. set (A := 2 ^ (159 + u)) in *. clearbody A B. set (n := Z.of_nat (length l)) in *. clearbody n.
    assert (1 * abs_sum l <= n * n * abs_sum l) by (apply Z.mul_le_mono_nonneg_r; [lia|nia]). clear - HR H H0 Hs. nia.
  - exists y. split; [exact E|]. split; [exact Dy|]. rewrite T. reflexivity.
Qed.
Print Assumptions C34_sum_from_zero.

(** The number does not depend on the order of the additions. *)
Theorem C34_order : forall l l' u, 0 <= u <= 1900 -> Permutation l l' -> Forall is_double l -> Forall (fun d => (2 ^ u | d)) l -> l <> [] ->
  4 * Z.of_nat (length l) ^ 2 * abs_sum l <= 2 ^ (159 + u) ->
  exists y y', add_list (of_double 0) l = Some y /\ add_list (of_double 0) l' = Some y' /\ total y = total y'.
Proof.
  assert (Hz : forall a b, Permutation a b -> zsum a = zsum b) by (intros a b H; induction H; rewrite ?zsum_cons in *; lia).
  intros l l' u Hu Hp Dl Gl Hn HR.
  assert (Ha : abs_sum l = abs_sum l') by (unfold abs_sum; apply Hz; now apply Permutation_map).
  destruct (C34_sum_from_zero l u Hu Dl Gl Hn HR) as (y & E & _ & T).
  destruct (C34_sum_from_zero l' u Hu) as (y' & E' & _ & T').
  - now apply (Permutation_Forall Hp).
  - now apply (Permutation_Forall Hp).
  - intros ->. apply Permutation_sym, Permutation_nil in Hp. congruence.
  - rewrite <- Ha, <- (Permutation_length Hp). exact HR.
  - exists y, y'. split; [exact E|]. split; [exact E'|]. rewrite T, T'. now apply Hz.
Qed.
Print Assumptions C34_order.

(** Sums and differences of two variables. *)
Lemma ep_list : forall u b, doubles b -> grain u b -> let l := [compensation2 b; compensation b; value b] in
  Forall is_double l /\ Forall (fun d => (2 ^ u | d)) l /\ abs_sum l = magnitude b /\ zsum l = total b.
Proof.
  intros u b (D1 & D2 & D3) (G1 & G2 & G3) l. unfold l. split; [auto|]. split; [auto|]. unfold abs_sum, magnitude, total. cbn [map zsum fold_right]. split; lia.
Qed.

Theorem C34_add_variables : forall u a b, 0 <= u -> doubles a -> doubles b -> grain u a -> grain u b ->
  room u 3 (magnitude b) a -> moderate (magnitude b) a ->
  exists y d, add_ep a b = Some y /\ doubles y /\ total y = total a + total b /\
              sub_ep a b = Some d /\ doubles d /\ total d = total a - total b.
Proof.
  intros u a b Hu Da Db Ga Gb HR HM.
  destruct (ep_list u b Db Gb) as (L1 & L2 & L3 & L4).
  assert (Gn : grain u (neg_ep b)) by (destruct Gb as (G1 & G2 & G3); split; [|split]; cbn [neg_ep value compensation compensation2]; now apply Z.divide_opp_r).
  destruct (ep_list u (neg_ep b) (neg_doubles b Db) Gn) as (N1 & N2 & N3 & N4).
  assert (Em : magnitude (neg_ep b) = magnitude b) by (unfold magnitude, neg_ep; cbn [value compensation compensation2]; now rewrite !Z.abs_opp).
  assert (Et : total (neg_ep b) = - total b) by (unfold total, neg_ep; cbn [value compensation compensation2]; ring). rewrite Em in N3. rewrite Et in N4.
  unfold sub_ep. rewrite !add_ep_list.
  destruct (C34_sum _ u a Hu Da L1 Ga L2) as (y & Y1 & Y2 & Y3); [rewrite L3; exact HR|rewrite L3; exact HM|].
  destruct (C34_sum _ u a Hu Da N1 Ga N2) as (d & Z1 & Z2 & Z3); [rewrite N3; exact HR|rewrite N3; exact HM|].
  exists y, d. rewrite L4 in Y3. rewrite N4 in Z3. split; [exact Y1|]. split; [exact Y2|]. split; [exact Y3|]. split; [exact Z1|]. split; [exact Z2|]. lia.
Qed.
Print Assumptions C34_add_variables.

(** Equal numbers compare equal, whatever the parts; numbers that compare equal differ by
    less than the last bit of the second compensation of their difference. *)
Theorem C34_equal : forall u a b, 0 <= u -> doubles a -> doubles b -> grain u a -> grain u b ->
  room u 3 (magnitude b) a -> moderate (magnitude b) a ->
  (total a = total b -> equal a b = Some true) /\
  (equal a b = Some true -> exists d, sub_ep a b = Some d /\ 2 ^ 52 * Z.abs (total a - total b) <= Z.abs (compensation2 d)).
Proof.
  intros u a b Hu Da Db Ga Gb HR HM. destruct (C34_add_variables u a b Hu Da Db Ga Gb HR HM) as (_ & d & _ & _ & _ & Ed & (D1 & D2 & D3) & Td).
  unfold equal. rewrite Ed. cbn [bind]. unfold to_double, fadd. split.
  - intros E. assert (Hs : value d + compensation d = - compensation2 d) by (unfold total in Td at 1; lia).
    rewrite Hs. assert (F := fits_opp 53 ltac:(lia) _ (proj1 D3)).
    rewrite (rounded_id _ F) by (rewrite Z.abs_opp; exact (proj2 D3)). cbn [bind]. replace (- compensation2 d + compensation2 d) with 0 by lia.
    rewrite (rounded_id 0 (fits_0 53 ltac:(lia))) by (rewrite overflow_big; assert (G := big_pos); cbn [Z.abs]; lia). reflexivity.
  - destruct (rounded (value d + compensation d)) as [s|] eqn:E1; [|discriminate]. cbn [bind].
    destruct (rounded (s + compensation2 d)) as [t|] eqn:E2; [|discriminate]. cbn [bind]. intros E. injection E as E. apply Z.eqb_eq in E. subst t.
    exists d. split; [reflexivity|]. apply rounded_some in E1, E2. destruct E1 as [E1 _]. destruct E2 as [E2 _].
    assert (G1 := rnd_error 53 ltac:(lia) (value d + compensation d)). assert (G2 := rnd_error 53 ltac:(lia) (s + compensation2 d)).
    rewrite <- E1 in G1. rewrite <- E2 in G2. rewrite <- Td. unfold total. clear - G1 G2. lia.
Qed.
Print Assumptions C34_equal.

(** Multiplication by an integer in the range where the doubling test does not overflow. *)
Theorem C34_multiply : forall t x u k fuel, 2 <= bits t -> 0 <= u -> doubles x -> grain u x ->
  int_min t <= k <= int_max t -> (is_signed t = true -> k <> int_min t) ->
  (forall o, odd_part (Z.abs k) o -> o <= limit t) ->
  room u (3 * bits t) (Z.abs k * magnitude x) (multiple (Z.abs k) x) -> 3 * (Z.abs k * magnitude x) <= 2 ^ 2096 -> bits t < Z.of_nat fuel ->
  exists y, times fuel t x k = Done y /\ doubles y /\ total y = k * total x.
Proof.
  intros t x u k fuel Hb Hu Dx Gx Hk Hmin Hodd HR HM Hf. unfold times. destruct (Z.eqb_spec k 0) as [->|Hk0].
  - exists (mkEp 0 0 0). split; [reflexivity|]. assert (D0 : is_double 0) by (split; [apply (fits_0 53); lia|apply pow_pos; lia]). split; [split; auto|reflexivity].
  - assert (Habs : 0 < Z.abs k <= int_max t).
    { unfold int_min, int_max in *. destruct (is_signed t); [specialize (Hmin eq_refl)|]; lia. }
    destruct (times_pos t x u (Z.abs k) fuel Hb Hu Dx Gx Habs Hodd HR HM Hf) as (a & o & y & Eh & Ey & Dy & Ty).
    destruct (is_signed t && (k <? 0)) eqn:En.
    + apply Bool.andb_true_iff in En. destruct En as [Es En]. apply Z.ltb_lt in En. rewrite arith_ok by (assumption || lia).
      replace (- k) with (Z.abs k) by lia. rewrite Eh. destruct (scale x a) as [a0|]; [|discriminate]. rewrite Ey. exists (neg_ep y).
      split; [reflexivity|]. split; [now apply neg_doubles|]. unfold total, neg_ep in *. cbn [value compensation compensation2].
      assert (Z.abs k = - k) by lia. rewrite H in Ty. lia.
    + assert (k > 0).
      { unfold int_min in Hk. destruct (is_signed t); cbn [andb] in En; [apply Z.ltb_ge in En; lia|lia]. }
      rewrite Z.abs_eq in Eh, Ty by lia. rewrite Eh. destruct (scale x a) as [a0|]; [|discriminate]. rewrite Ey. exists y. auto.
Qed.
Print Assumptions C34_multiply.

(** Beyond: signed types overflow, for unsigned ones the loop never ends. *)
Theorem C34_multiply_large_refuted : forall t x k, 2 <= bits t -> doubles x -> Z.odd k = true -> limit t < Z.abs k <= int_max t ->
  (is_signed t = true -> forall fuel, bits t < Z.of_nat fuel -> times fuel t x k = Overflow) /\
  (is_signed t = false -> 0 <= k -> forall fuel, times fuel t x k = OutOfFuel).
Proof.
  intros t x k Hb Dx Hodd Hk. destruct (limit_max t Hb) as [L0 _]. split.
  - intros Hs fuel Hf. destruct fuel as [|f]; [lia|]. unfold times. destruct (Z.eqb_spec k 0); [lia|]. rewrite Hs. cbn [andb].
    assert (G : forall r, r = Z.abs k -> match halve (S f) t r 1 with None => OutOfFuel | Some None => Overflow
        | Some (Some (rhs, mult)) => match scale x mult with None => Infinite | Some a => match add_multiples (S f) t a a rhs with
            | Done y => Done (if k <? 0 then neg_ep y else y) | o => o end end end = Overflow).
    { intros r Hr. assert (Ho : Z.odd r = true) by (subst r; destruct (Z.abs_spec k) as [[_ ->]|[_ ->]]; [exact Hodd|now rewrite Z.odd_opp]).
      rewrite halve_odd by exact Ho. rewrite (scale_one x Dx).
      change (add_multiples (S f) t x x r) with
        (if 1 <? r then match largest (S f) t r 1 with None => OutOfFuel | Some None => Overflow
           | Some (Some mult) => match scale x mult with None => Infinite | Some b => match add_ep x b with None => Infinite
              | Some this' => match arith t (r - mult) with None => Overflow | Some rhs' => add_multiples f t x this' rhs' end end end end else Done x).
      assert (Hl := largest_overflow t r Hs Hb ltac:(lia) (S f) 0 ltac:(lia) ltac:(lia)). change (2 ^ 0) with 1 in Hl. rewrite Hl.
      replace (1 <? r) with true by (symmetry; apply Z.ltb_lt; lia). reflexivity. }
    destruct (Z.ltb_spec k 0).
    + rewrite arith_ok by (assumption || lia). apply G. lia.
    + apply G. lia.
  - intros Hs Hk0 fuel. unfold times. destruct (Z.eqb_spec k 0); [lia|]. rewrite Hs. cbn [andb]. destruct fuel as [|f]; [reflexivity|].
    rewrite halve_odd by exact Hodd. rewrite (scale_one x Dx).
    change (add_multiples (S f) t x x k) with
        (if 1 <? k then match largest (S f) t k 1 with None => OutOfFuel | Some None => Overflow
           | Some (Some mult) => match scale x mult with None => Infinite | Some b => match add_ep x b with None => Infinite
              | Some this' => match arith t (k - mult) with None => Overflow | Some rhs' => add_multiples f t x this' rhs' end end end end else Done x).
    destruct (largest_forever t k Hs Hb ltac:(lia) (S f)) as [_ Hl]. specialize (Hl 0 ltac:(lia)). change (2 ^ 0) with 1 in Hl. rewrite Hl.
    replace (1 <? k) with true by (symmetry; apply Z.ltb_lt; lia). reflexivity.
Qed.
Print Assumptions C34_multiply_large_refuted.

(** The smallest signed number has no negative. *)
Theorem C34_multiply_smallest_refuted : forall t x fuel, 2 <= bits t -> is_signed t = true -> times fuel t x (int_min t) = Overflow.
Proof.
  intros t x fuel Hb Hs. unfold times, int_min. rewrite Hs. assert (P := pow_pos (bits t - 1) ltac:(lia)).
  destruct (Z.eqb_spec (- 2 ^ (bits t - 1)) 0); [lia|]. cbn [andb]. destruct (Z.ltb_spec (- 2 ^ (bits t - 1)) 0); [|lia].
  unfold arith. rewrite Hs, Z.opp_involutive. unfold int_max. rewrite Hs. destruct (Z.leb_spec (2 ^ (bits t - 1)) (2 ^ (bits t - 1) - 1)); [lia|].
  now rewrite Bool.andb_false_r.
Qed.
Print Assumptions C34_multiply_smallest_refuted.

(** Subtraction of an unsigned number adds its wrapped negative. *)
Theorem C34_unsigned_minus_refuted : forall t x b, 2 <= bits t -> is_signed t = false -> 0 < b < 2 ^ bits t ->
  sub_int t x b = match bind (rounded ((2 ^ bits t - b) * 2 ^ 1074)) (add_double x) with Some y => Done y | None => Infinite end.
Proof.
  intros t x b Hb Hs Hr. unfold sub_int, arith. rewrite Hs. 
  replace ((- b) mod 2 ^ bits t) with (2 ^ bits t - b) by (apply (Z.mod_unique_pos _ _ (-1)); lia). reflexivity.
Qed.
Print Assumptions C34_unsigned_minus_refuted.

(** ** Examples *)
Definition one : Z := 2 ^ 1074.

Lemma is_double_pow : forall m e, 0 <= e <= 2000 -> Z.abs m < 2 ^ 53 -> is_double (m * 2 ^ e).
Proof.
  intros m e He Hm. split; [exists m, e; split; [lia|]; split; [exact Hm|reflexivity]|].
  rewrite Z.abs_mul, (Z.abs_eq (2 ^ e)) by (assert (G := pow_pos e ltac:(lia)); lia).
  apply Z.lt_le_trans with (2 ^ 53 * 2 ^ e); [apply Z.mul_lt_mono_pos_r; [apply pow_pos; lia|exact Hm]|].
  rewrite <- Z.pow_add_r by lia. apply pow_mono. lia.
Qed.

(** 1 + 2^100 + 1 - 2^100: the sum of doubles is 0. *)
Example C34_sum_example :
  let l := [1 * 2 ^ 1074; 1 * 2 ^ 1174; 1 * 2 ^ 1074; (-1) * 2 ^ 1174] in
  Forall is_double l /\ Forall (fun d => (2 ^ 1074 | d)) l /\ 4 * Z.of_nat (length l) ^ 2 * abs_sum l <= 2 ^ (159 + 1074) /\
  (exists y, add_list (of_double 0) l = Some y /\ total y = 2 * one) /\
  fold_left (fun s d => bind s (fun s => fadd s d)) l (Some 0) = Some 0.
Proof.
  cbn zeta. assert (D : forall m e, 0 <= e <= 2000 -> Z.abs m < 2 ^ 53 -> is_double (m * 2 ^ e)) by exact is_double_pow.
  split; [repeat constructor; apply D; split; (discriminate || reflexivity) || reflexivity|].
  split; [repeat constructor; apply Z.divide_mul_r, pow_divide; lia|]. split; [vm_compute; discriminate|].
  split; [|vm_compute; reflexivity]. eexists. split; [vm_compute; reflexivity|vm_compute; reflexivity].
Qed.

(** 3 * 7 with an int. *)
Example C34_multiply_example :
  let t := mkInt 32 true in let x := of_double (3 * 2 ^ 1074) in
  doubles x /\ grain 1074 x /\ (forall o, odd_part 7 o -> o <= limit t) /\
  room 1074 (3 * 32) (7 * magnitude x) (multiple 7 x) /\ 3 * (7 * magnitude x) <= 2 ^ 2096 /\
  times 33 t x 7 = Done (mkEp (21 * 2 ^ 1074) 0 0) /\
  times 33 t x (2 ^ 30 + 1) = Overflow /\
  sub_int (mkInt 32 false) x 1 = Done (mkEp ((2 ^ 32 + 2) * 2 ^ 1074) 0 0).
Proof.
  cbn zeta. assert (D0 : is_double 0) by (apply (is_double_pow 0 0); [split; discriminate|reflexivity]).
  split; [split; [apply is_double_pow; [split; discriminate|reflexivity]|auto]|].
  split; [split; [apply Z.divide_mul_r, Z.divide_refl|split; apply Z.divide_0_r]|].
  split; [|split; [vm_compute; discriminate|split; [vm_compute; discriminate|split; [vm_compute; reflexivity|split; vm_compute; reflexivity]]]].
  intros o Ho. rewrite (odd_part_unique 7 o 7 Ho); [vm_compute; discriminate|]. split; [reflexivity|]. exists 0. split; [lia|reflexivity].
Qed.

(** Two variables with the same number but different parts. *)
Example C34_equal_example :
  let a := mkEp (2 ^ 1174) (2 ^ 1074) 0 in let b := mkEp (2 ^ 1174 - 2 ^ 1130) (2 ^ 1130) (2 ^ 1074) in
  doubles a /\ doubles b /\ grain 1074 a /\ grain 1074 b /\ room 1074 3 (magnitude b) a /\ moderate (magnitude b) a /\ total a = total b /\ equal a b = Some true.
Proof.
  cbn zeta. assert (D0 : is_double 0) by (apply (is_double_pow 0 0); [split; discriminate|reflexivity]).
  assert (D : forall e, 0 <= e <= 2000 -> is_double (2 ^ e)) by (intros e He; rewrite <- (Z.mul_1_l (2 ^ e)); apply is_double_pow; [exact He|reflexivity]).
  assert (Db : is_double (2 ^ 1174 - 2 ^ 1130)).
  { replace (2 ^ 1174 - 2 ^ 1130) with ((2 ^ 44 - 1) * 2 ^ 1130) by (vm_compute; reflexivity). apply is_double_pow; [split; discriminate|reflexivity]. }
  assert (V : forall e, 1074 <= e -> (2 ^ 1074 | 2 ^ e)) by (intros; apply pow_divide; lia).
  split; [split; [apply D; split; discriminate|split; [apply D; split; discriminate|exact D0]]|].
  split; [split; [exact Db|split; apply D; split; discriminate]|].
  split; [split; [apply V; discriminate|split; [apply V; discriminate|apply Z.divide_0_r]]|].
  split; [split; [apply Z.divide_sub_r; apply V; discriminate|split; apply V; discriminate]|].
  split; [vm_compute; discriminate|]. split; [vm_compute; discriminate|]. split; vm_compute; reflexivity.
Qed.
