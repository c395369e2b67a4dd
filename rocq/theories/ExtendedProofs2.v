(** Sums. *)
From Coq Require Import Znumtheory.
From Verif Require Import Common ExtendedModel ExtendedSpec ExtendedProofs1.
Open Scope Z_scope.

Notation rnd := (round_to 53).
Definition big : Z := 2 ^ 2096.

Lemma overflow_big : overflow_at = 4 * big.
Proof. unfold overflow_at, big. change 4 with (2 ^ 2). rewrite <- Z.pow_add_r by lia. reflexivity. Qed.
Lemma big_pos : 0 < big.
Proof. unfold big. apply pow_pos. lia. Qed.
Global Opaque big overflow_at.

Lemma is_double_eq : forall n, is_double n <-> fits 53 n /\ Z.abs n < overflow_at.
Proof. intros n. reflexivity. Qed.

Lemma rounded_some : forall n s, rounded n = Some s -> s = rnd n /\ Z.abs s < overflow_at.
Proof. intros n s. unfold rounded. destruct (Z.ltb_spec (Z.abs (rnd n)) overflow_at); [|discriminate]. intros E. injection E as <-. auto. Qed.

Lemma rounded_ok : forall n, Z.abs (rnd n) < overflow_at -> rounded n = Some (rnd n).
Proof. intros n H. unfold rounded. apply Z.ltb_lt in H. now rewrite H. Qed.

Lemma rounded_id : forall n, fits 53 n -> Z.abs n < overflow_at -> rounded n = Some n.
Proof. intros n Hf H. rewrite rounded_ok; rewrite (rnd_id 53 ltac:(lia) n Hf); [reflexivity|exact H]. Qed.

Lemma rounded_double : forall n s, rounded n = Some s -> is_double s.
Proof. intros n s H. apply rounded_some in H. destruct H as [-> H]. apply is_double_eq. split; [apply rnd_fits; lia|exact H]. Qed.

Lemma rounded_nearest : forall n s, rounded n = Some s -> nearest_double n s.
Proof.
  intros n s H. split; [now apply rounded_double in H|]. apply rounded_some in H. destruct H as [-> _].
  intros g [Hg _]. apply rnd_nearest; [lia|exact Hg].
Qed.

Lemma two_sum_some : forall a b t c, fits 53 a -> fits 53 b -> two_sum a b = Some (t, c) ->
  t = rnd (a + b) /\ c = a + b - t /\ is_double t /\ is_double c.
Proof.
  intros a b t c Ha Hb. unfold two_sum, fadd, fsub, bind. destruct (rounded (a + b)) as [s|] eqn:Es; [|discriminate].
  assert (Ds := rounded_double _ _ Es). apply rounded_some in Es. destruct Es as [Es Hs].
  destruct (Z.leb_spec (Z.abs b) (Z.abs a)) as [H|H].
  - destruct (fast_two_sum 53 ltac:(lia) a b Ha Hb H) as [F1 F2]. rewrite <- Es in F1, F2.
    destruct (rounded (a - s)) as [d|] eqn:Ed; [|discriminate]. apply rounded_some in Ed. destruct Ed as [Ed _].
    rewrite (rnd_id 53 ltac:(lia) _ F1) in Ed. subst d.
    destruct (rounded (a - s + b)) as [e|] eqn:Ee; [|discriminate]. assert (De := rounded_double _ _ Ee). apply rounded_some in Ee. destruct Ee as [Ee _].
    rewrite (rnd_id 53 ltac:(lia) _ F2) in Ee. intros E. injection E as <- <-. split; [exact Es|]. split; [lia|]. auto.
  - destruct (fast_two_sum 53 ltac:(lia) b a Hb Ha ltac:(lia)) as [F1 F2]. rewrite (Z.add_comm b a) in F1, F2. rewrite <- Es in F1, F2.
    destruct (rounded (b - s)) as [d|] eqn:Ed; [|discriminate]. apply rounded_some in Ed. destruct Ed as [Ed _].
    rewrite (rnd_id 53 ltac:(lia) _ F1) in Ed. subst d.
    destruct (rounded (b - s + a)) as [e|] eqn:Ee; [|discriminate]. assert (De := rounded_double _ _ Ee). apply rounded_some in Ee. destruct Ee as [Ee _].
    rewrite (rnd_id 53 ltac:(lia) _ F2) in Ee. intros E. injection E as <- <-. split; [exact Es|]. split; [lia|]. auto.
Qed.

Lemma sum_bounds : forall a b, fits 53 a -> fits 53 b ->
  let t := rnd (a + b) in Z.abs (a + b - t) <= Z.abs b /\ Z.abs (a + b - t) <= Z.abs a /\ Z.abs t <= Z.abs a + 2 * Z.abs b.
Proof.
  intros a b Ha Hb t. assert (G1 := rnd_nearest 53 ltac:(lia) (a + b) a Ha). assert (G2 := rnd_nearest 53 ltac:(lia) (a + b) b Hb).
  fold t in G1, G2. lia.
Qed.

Lemma two_sum_ok : forall a b, fits 53 a -> fits 53 b -> Z.abs a + 2 * Z.abs b <= big -> exists c, two_sum a b = Some (rnd (a + b), c).
Proof.
  intros a b Ha Hb Hbig. assert (Hp := big_pos). assert (Ho := overflow_big). destruct (sum_bounds a b Ha Hb) as (B1 & B2 & B3).
  unfold two_sum, fadd, fsub, bind. rewrite rounded_ok by lia. set (s := rnd (a + b)) in *.
  destruct (Z.leb_spec (Z.abs b) (Z.abs a)) as [H|H].
  - destruct (fast_two_sum 53 ltac:(lia) a b Ha Hb H) as [F1 F2]. fold s in F1, F2.
    rewrite (rounded_id (a - s) F1) by lia. rewrite (rounded_id _ F2) by lia. eexists. reflexivity.
  - destruct (fast_two_sum 53 ltac:(lia) b a Hb Ha ltac:(lia)) as [F1 F2]. rewrite (Z.add_comm b a) in F1, F2. fold s in F1, F2.
    rewrite (rounded_id (b - s) F1) by lia. rewrite (rounded_id _ F2) by lia. eexists. reflexivity.
Qed.

(** One addition. *)
Lemma add_double_some : forall x d y, doubles x -> is_double d -> add_double x d = Some y ->
  doubles y /\ exists c cc, is_double cc /\ value y = rnd (value x + d) /\ c = value x + d - value y /\
    compensation y = rnd (compensation x + c) /\ cc = compensation x + c - compensation y /\
    rounded (compensation2 x + cc) = Some (compensation2 y).
Proof.
  intros x d y (Dv & Dc & Dc2) Dd. unfold add_double, bind, fadd.
  destruct (two_sum (value x) d) as [[t c]|] eqn:E1; [|discriminate]. cbn [fst snd].
  destruct (two_sum_some _ _ _ _ (proj1 Dv) (proj1 Dd) E1) as (T1 & C1 & Dt & Dcc).
  destruct (two_sum (compensation x) c) as [[t2 cc]|] eqn:E2; [|discriminate]. cbn [fst snd].
  destruct (two_sum_some _ _ _ _ (proj1 Dc) (proj1 Dcc) E2) as (T2 & C2 & Dt2 & Dcc2).
  destruct (rounded (compensation2 x + cc)) as [c2|] eqn:E3; [|discriminate]. intros E. injection E as <-. cbn [value compensation compensation2].
  split; [split; [exact Dt|split; [exact Dt2|exact (rounded_double _ _ E3)]]|]. exists c, cc. split; [exact Dcc2|]. auto.
Qed.

Lemma add_double_ok : forall x d, doubles x -> is_double d ->
  Z.abs (value x) + 2 * Z.abs d <= big -> Z.abs (compensation x) + 2 * Z.abs d <= big -> Z.abs (compensation2 x) + 2 * Z.abs d <= big ->
  exists y, add_double x d = Some y.
Proof.
  intros x d (Dv & Dc & Dc2) Dd H1 H2 H3. assert (Hp := big_pos). assert (Ho := overflow_big). unfold add_double, bind, fadd.
  destruct (two_sum_ok (value x) d (proj1 Dv) (proj1 Dd) H1) as [c E1]. rewrite E1. cbn [fst snd].
  destruct (two_sum_some _ _ _ _ (proj1 Dv) (proj1 Dd) E1) as (T1 & C1 & Dt & Dcc).
  destruct (sum_bounds _ _ (proj1 Dv) (proj1 Dd)) as (B1 & B2 & B3). rewrite <- C1 in B1, B2.
  destruct (two_sum_ok (compensation x) c (proj1 Dc) (proj1 Dcc) ltac:(lia)) as [cc E2]. rewrite E2. cbn [fst snd].
  destruct (two_sum_some _ _ _ _ (proj1 Dc) (proj1 Dcc) E2) as (T2 & C2 & Dt2 & Dcc2).
  destruct (sum_bounds _ _ (proj1 Dc) (proj1 Dcc)) as (B4 & B5 & B6). rewrite <- C2 in B4, B5.
  destruct (sum_bounds _ _ (proj1 Dc2) (proj1 Dcc2)) as (B7 & B8 & B9).
  rewrite rounded_ok by lia. eexists. reflexivity.
Qed.

(** Sizes after an addition. *)
Lemma add_double_sizes : forall x d y, doubles x -> is_double d -> add_double x d = Some y ->
  Z.abs (value y) <= Z.abs (value x) + 2 * Z.abs d /\
  Z.abs (compensation y) <= Z.abs (compensation x) + 2 * Z.abs d /\
  2 ^ 53 * Z.abs (compensation y) <= 2 ^ 53 * Z.abs (compensation x) + 2 * (Z.abs (value x) + Z.abs d) /\
  Z.abs (compensation2 y) <= Z.abs (compensation2 x) + 2 * Z.abs d.
Proof.
  intros x d y Dx Dd E. destruct (add_double_some x d y Dx Dd E) as (Dy & c & cc & Dcc & V & C & K & CC & R).
  destruct Dx as (Dv & Dc & Dc2).
  assert (Dc0 : fits 53 c).
  { unfold add_double, bind in E. destruct (two_sum (value x) d) as [[t c']|] eqn:E1; [|discriminate].
    destruct (two_sum_some _ _ _ _ (proj1 Dv) (proj1 Dd) E1) as (T1 & C1 & Dt & Dcc'). replace c with c' by congruence. exact (proj1 Dcc'). }
  destruct (sum_bounds _ _ (proj1 Dv) (proj1 Dd)) as (B1 & B2 & B3). rewrite <- V in B1, B2, B3. rewrite <- C in B1, B2.
  destruct (sum_bounds _ _ (proj1 Dc) Dc0) as (B4 & B5 & B6). rewrite <- K in B4, B5, B6. rewrite <- CC in B4, B5.
  destruct (sum_bounds _ _ (proj1 Dc2) (proj1 Dcc)) as (B7 & B8 & B9). apply rounded_some in R. destruct R as [R _]. rewrite <- R in B9.
  assert (G := rnd_error 53 ltac:(lia) (value x + d)). rewrite <- V in G. replace (value y - (value x + d)) with (- c) in G by (clear - C; lia). rewrite Z.abs_opp in G.
  split; [exact B3|]. split; [clear - B1 B6; lia|]. split; [clear - B6 G; lia|clear - B1 B4 B9; lia].
Qed.

Lemma abs_sum_nonneg : forall l, 0 <= abs_sum l.
Proof. induction l as [|a l IH]; unfold abs_sum in *; cbn [map]; [cbn; lia|]. rewrite zsum_cons. lia. Qed.
Lemma abs_sum_cons : forall a l, abs_sum (a :: l) = Z.abs a + abs_sum l.
Proof. intros. unfold abs_sum. cbn [map]. apply zsum_cons. Qed.

(** Finite results. *)
Lemma add_list_some : forall l x, doubles x -> Forall is_double l ->
  Z.abs (value x) + 2 * abs_sum l <= big -> Z.abs (compensation x) + 2 * abs_sum l <= big -> Z.abs (compensation2 x) + 2 * abs_sum l <= big ->
  exists y, add_list x l = Some y /\ doubles y.
Proof.
  induction l as [|d l IH]; intros x Dx Dl H1 H2 H3; [exists x; auto|]. inversion Dl as [|d' l' Dd Dl']; subst.
  rewrite abs_sum_cons in H1, H2, H3. assert (G := abs_sum_nonneg l). cbn [add_list]. unfold bind.
  destruct (add_double_ok x d Dx Dd ltac:(lia) ltac:(lia) ltac:(lia)) as [y E]. rewrite E.
  destruct (add_double_sizes x d y Dx Dd E) as (S1 & S2 & _ & S3). destruct (add_double_some x d y Dx Dd E) as [Dy _].
  apply IH; try assumption; lia.
Qed.

Lemma room_less : forall u n s x n' s', 0 <= n' <= n -> 0 <= s' <= s -> room u n s x -> room u n' s' x.
Proof.
  intros u n s x n' s' Hn Hs. unfold room. intros H. eapply Z.le_trans; [|exact H]. apply Z.add_le_mono_l.
  apply Z.mul_le_mono_nonneg; [lia|lia| |].
  - assert (0 <= Z.abs (compensation x)) by lia. assert (0 <= 2 * n' * (Z.abs (value x) + 2 * s')) by (apply Z.mul_nonneg_nonneg; lia). lia.
  - apply Z.add_le_mono_l. apply Z.mul_le_mono_nonneg; lia.
Qed.

Lemma room_arith : forall Q R n S av ac ac2 ad av1 ac1 ac21 acc B, 0 < Q -> 0 <= n -> 0 <= S -> 0 <= av -> 0 <= ac -> 0 <= ad ->
  R * acc <= Q * ac + (av + ad) -> Q * ac1 <= Q * ac + 2 * (av + ad) -> av1 <= av + 2 * ad -> R * ac21 <= R * ac2 + R * acc ->
  R * ac2 + (n + 1) * (Q * ac + 2 * (n + 1) * (av + 2 * (ad + S))) <= B ->
  R * ac2 + R * acc <= B /\ R * ac21 + n * (Q * ac1 + 2 * n * (av1 + 2 * S)) <= B.
Proof.
  intros Q R n S av ac ac2 ad av1 ac1 ac21 acc B HQ Hn HS Hav Hac Had H1 H2 H3 H4 HB.
  set (W := av + 2 * (ad + S)) in *. assert (HW : 0 <= W /\ av + ad <= W /\ av1 + 2 * S <= W) by (unfold W; lia). destruct HW as (W0 & W1 & W2).
  assert (A1 : 0 <= Q * ac) by (apply Z.mul_nonneg_nonneg; lia). assert (A2 : 0 <= n * (Q * ac)) by (apply Z.mul_nonneg_nonneg; lia).
  assert (A3 : 0 <= n * W) by (apply Z.mul_nonneg_nonneg; lia). assert (A4 : 0 <= n * (n * W)) by (apply Z.mul_nonneg_nonneg; lia).
  assert (E : (n + 1) * (Q * ac + 2 * (n + 1) * W) = n * (Q * ac) + Q * ac + 2 * (n * (n * W)) + 4 * (n * W) + 2 * W) by ring.
  rewrite E in HB. clear E. split; [lia|].
  assert (A5 : n * (Q * ac1 + 2 * n * (av1 + 2 * S)) <= n * (Q * ac + 2 * W + 2 * n * W)).
  { apply Z.mul_le_mono_nonneg_l; [exact Hn|]. apply Z.add_le_mono; [lia|]. apply Z.mul_le_mono_nonneg_l; lia. }
  assert (E : n * (Q * ac + 2 * W + 2 * n * W) = n * (Q * ac) + 2 * (n * W) + 2 * (n * (n * W))) by ring. rewrite E in A5. lia.
Qed.

(** Exactness. *)
Lemma add_list_exact : forall l u x y, 0 <= u -> doubles x -> Forall is_double l -> grain u x -> Forall (fun d => (2 ^ u | d)) l ->
  room u (Z.of_nat (length l)) (abs_sum l) x -> add_list x l = Some y -> total y = total x + zsum l /\ grain u y.
Proof.
  induction l as [|d l IH]; intros u x y Hu Dx Dl Gx Gl HR E.
  - cbn [add_list] in E. injection E as <-. cbn. split; [lia|exact Gx].
  - inversion Dl as [|d' l' Dd Dl']; subst. inversion Gl as [|d' l' Gd Gl']; subst. cbn [add_list] in E. unfold bind in E.
    destruct (add_double x d) as [x1|] eqn:E1; [|discriminate].
    destruct (add_double_some x d x1 Dx Dd E1) as (D1 & c & cc & Dcc & V & C & K & CC & R).
    destruct (add_double_sizes x d x1 Dx Dd E1) as (S1 & S2 & S3 & S4). destruct Gx as (G1 & G2 & G3).
    assert (Gv : (2 ^ u | value x1)) by (rewrite V; apply rnd_divide; [lia|exact Hu|now apply Z.divide_add_r]).
    assert (Gc : (2 ^ u | c)) by (rewrite C; apply Z.divide_sub_r; [now apply Z.divide_add_r|exact Gv]).
    assert (Gk : (2 ^ u | compensation x1)) by (rewrite K; apply rnd_divide; [lia|exact Hu|now apply Z.divide_add_r]).
    assert (Gcc : (2 ^ u | cc)) by (rewrite CC; apply Z.divide_sub_r; [now apply Z.divide_add_r|exact Gk]).
    assert (e1 := rnd_error 53 ltac:(lia) (value x + d)). rewrite <- V in e1. replace (value x1 - (value x + d)) with (- c) in e1 by (clear - C; lia). rewrite Z.abs_opp in e1.
    assert (e2 := rnd_error 53 ltac:(lia) (compensation x + c)). rewrite <- K in e2. replace (compensation x1 - (compensation x + c)) with (- cc) in e2 by (clear - CC; lia). rewrite Z.abs_opp in e2.
    assert (Hcc : 2 ^ 106 * Z.abs cc <= 2 ^ 53 * Z.abs (compensation x) + (Z.abs (value x) + Z.abs d)).
    { clear - e1 e2. change (2 ^ 106) with (2 ^ 53 * 2 ^ 53). set (Q := 2 ^ 53) in *. assert (HQ : 0 < Q) by reflexivity. clearbody Q. rewrite <- Z.mul_assoc.
      apply Z.le_trans with (Q * Z.abs (compensation x + c)); [apply Z.mul_le_mono_nonneg_l; lia|].
      apply Z.le_trans with (Q * (Z.abs (compensation x) + Z.abs c)); [apply Z.mul_le_mono_nonneg_l; lia|]. lia. }
    assert (Hsum := abs_sum_nonneg l). rewrite abs_sum_cons in HR. cbn [length] in HR. rewrite Nat2Z.inj_succ in HR. unfold Z.succ in HR. unfold room in HR.
    assert (Hfit0 : 2 ^ 106 * Z.abs (compensation2 x) + 2 ^ 106 * Z.abs cc <= 2 ^ (159 + u)).
    { refine (proj1 (room_arith (2 ^ 53) (2 ^ 106) (Z.of_nat (length l)) (abs_sum l) (Z.abs (value x)) (Z.abs (compensation x)) (Z.abs (compensation2 x))
        (Z.abs d) 0 0 0 (Z.abs cc) _ _ _ Hsum _ _ _ Hcc _ _ _ HR)); clear; try lia. }
    assert (Hfit : fits 53 (compensation2 x + cc)).
    { apply (fits_small 53 ltac:(lia) _ u); [exact Hu|now apply Z.divide_add_r|].
      apply (Zmult_le_reg_r _ _ (2 ^ 106)); [reflexivity|]. rewrite <- Z.pow_add_r by lia. replace (53 + u + 106) with (159 + u) by lia.
      eapply Z.le_trans; [|exact Hfit0]. clear. rewrite Z.mul_comm, <- Z.mul_add_distr_l. apply Z.mul_le_mono_nonneg_l; lia. }
    assert (R' := R). apply rounded_some in R'. destruct R' as [R' _]. rewrite (rnd_id 53 ltac:(lia) _ Hfit) in R'.
    assert (G1' : grain u x1) by (split; [exact Gv|split; [exact Gk|rewrite R'; now apply Z.divide_add_r]]).
    assert (HR1 : room u (Z.of_nat (length l)) (abs_sum l) x1).
    { unfold room. refine (proj2 (room_arith (2 ^ 53) (2 ^ 106) _ _ _ _ _ _ _ _ _ (Z.abs cc) _ _ _ Hsum _ _ _ Hcc S3 S1 _ HR)); clear - R'; try lia.
      all: try (rewrite R'; rewrite <- Z.mul_add_distr_l; apply Z.mul_le_mono_nonneg_l; lia). }
    destruct (IH u x1 y Hu D1 Dl' G1' Gl' HR1 E) as [T T']. split; [|exact T']. rewrite T, zsum_cons. unfold total. rewrite R'. clear - C CC. lia.
Qed.

Lemma add_ep_list : forall x b, add_ep x b = add_list x [compensation2 b; compensation b; value b].
Proof.
  intros x b. unfold add_ep. cbn [add_list]. unfold bind. destruct (add_double x (compensation2 b)) as [x1|]; [|reflexivity].
  destruct (add_double x1 (compensation b)) as [x2|]; [|reflexivity]. now destruct (add_double x2 (value b)).
Qed.

Lemma add_list_app : forall l1 l2 x, add_list x (l1 ++ l2) = bind (add_list x l1) (fun y => add_list y l2).
Proof. induction l1 as [|d l1 IH]; intros l2 x; [reflexivity|]. cbn [add_list app]. unfold bind in *. destruct (add_double x d); [apply IH|reflexivity]. Qed.
