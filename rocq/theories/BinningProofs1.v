From Coq Require Import ZArith QArith Qround List Bool Lia Lqa.
From Verif Require Import SrcbufModel RandomModel RandomProofs1 BinningModel BinningSpec.
Import ListNotations.
Open Scope Q_scope.

Lemma to_int_spec v :
  0 <= v < inject_Z 2147483648 ->
  exists b, to_int v = Some b /\ (0 <= b)%Z /\ inject_Z b <= v < inject_Z b + 1.
Proof.
  intros [H1 H2]. destruct v as [a d]. unfold Qle, Qlt in *. cbn in H1, H2.
  exists (a / Zpos d)%Z. unfold to_int. cbn [Qnum Qden].
  assert (P : (0 <= a)%Z) by lia.
  rewrite Z.quot_div_nonneg by lia.
  assert (B : (0 <= a / Z.pos d)%Z) by (apply Z.div_pos; lia).
  assert (B2 : (a / Z.pos d < 2147483648)%Z) by (apply Z.div_lt_upper_bound; lia).
  replace ((-2147483648 <=? a / Z.pos d) && (a / Z.pos d <=? 2147483647))%Z with true
    by (symmetry; apply andb_true_intro; split; apply Z.leb_le; lia).
  split; [reflexivity|]. split; [exact B|].
  pose proof (Z.div_mod a (Z.pos d) ltac:(lia)) as D.
  pose proof (Z.mod_pos_bound a (Z.pos d) ltac:(lia)) as M.
  split; unfold Qle, Qlt; cbn; lia.
Qed.

Lemma bin_unique (v : Q) b b' :
  inject_Z b <= v < inject_Z b + 1 -> inject_Z b' <= v < inject_Z b' + 1 -> b = b'.
Proof.
  intros [A1 A2] [B1 B2].
  assert (C1 : inject_Z b < inject_Z (b' + 1)) by (rewrite inject_Z_plus; change (inject_Z 1) with 1; lra).
  assert (C2 : inject_Z b' < inject_Z (b + 1)) by (rewrite inject_Z_plus; change (inject_Z 1) with 1; lra).
  rewrite <- Zlt_Qlt in C1, C2. lia.
Qed.

(** The value in the accumulator after the loop, for each bin. *)
Lemma collect_spec {A} (add : A -> A -> A) powf p (sites : list (Q * A)) s :
  (forall k v, In (k, v) sites ->
    0 <= powf (k / max p) (power p) * inject_Z (Z.of_nat (bins p)) < inject_Z 2147483648) ->
  length s = bins p ->
  exists s', collect powf p add sites s = Some s' /\ length s' = bins p /\
    forall b x, nth_error s b = Some x ->
      exists l, Forall2 (fun kv o =>
          (in_k_bin powf p b (fst kv) /\ o = Some (snd kv)) \/
          (~ in_k_bin powf p b (fst kv) /\ o = None)) sites l /\
        nth_error s' b = Some (fold_left (fun a o => match o with Some v => add a v | None => a end) l x).
Proof.
  revert s; induction sites as [|[k v] sites IH]; intros s Hf Hl.
  - exists s. split; [reflexivity|]. split; [exact Hl|]. intros b x Hx.
    exists []. split; [constructor|exact Hx].
  - assert (Hf' : forall k0 v0, In (k0, v0) sites ->
      0 <= powf (k0 / max p) (power p) * inject_Z (Z.of_nat (bins p)) < inject_Z 2147483648)
      by (intros; eapply Hf; right; eassumption).
    destruct (to_int_spec _ (Hf k v (or_introl eq_refl))) as (b0 & E & P & B).
    cbn [collect]. unfold get_k_bin. rewrite E. cbn [bind].
    destruct (Z.leb_spec 0 b0); [|lia]. cbn [andb].
    destruct (Z.ltb_spec b0 (Z.of_nat (bins p))) as [Hb|Hb].
    + destruct (nth_error s (Z.to_nat b0)) as [x0|] eqn:Ex.
      2:{ apply nth_error_None in Ex. lia. }
      cbn [bind].
      destruct (IH (put (Z.to_nat b0) (add x0 v) s) Hf') as (s' & C1 & C2 & C3);
        [rewrite put_length; exact Hl|].
      exists s'. split; [exact C1|]. split; [exact C2|]. intros b x Hx.
      assert (Nb : nth_error (put (Z.to_nat b0) (add x0 v) s) b =
        Some (if Nat.eqb b (Z.to_nat b0) then add x v else x)).
      { rewrite put_nth by lia. destruct (Nat.eqb_spec b (Z.to_nat b0)) as [->|Hne]; [|exact Hx].
        congruence. }
      destruct (C3 b _ Nb) as (l & L1 & L2).
      destruct (Nat.eqb_spec b (Z.to_nat b0)) as [Eb|Hne].
      * exists (Some v :: l). split.
        -- constructor; [|exact L1]. left. split; [|reflexivity]. unfold in_k_bin. cbn [fst].
           rewrite Eb, Z2Nat.id by lia. exact B.
        -- cbn [fold_left]. exact L2.
      * exists (None :: l). split.
        -- constructor; [|exact L1]. right. split; [|reflexivity]. intros F.
           unfold in_k_bin in F. cbn [fst] in F. pose proof (bin_unique _ _ _ B F). lia.
        -- cbn [fold_left]. exact L2.
    + destruct (IH s Hf' Hl) as (s' & C1 & C2 & C3).
      exists s'. split; [exact C1|]. split; [exact C2|]. intros b x Hx.
      destruct (C3 b _ Hx) as (l & L1 & L2). exists (None :: l). split; [|exact L2].
      constructor; [|exact L1]. right. split; [|reflexivity]. intros F.
      unfold in_k_bin in F. cbn [fst] in F. pose proof (bin_unique _ _ _ B F).
      assert (b < length s)%nat by (apply nth_error_Some; congruence). lia.
Qed.

Definition chosen (l : list (option Q)) : Z :=
  fold_left (fun a o => match o with Some _ => (a + 1)%Z | None => a end) l 0%Z.

Lemma count_shift {B} (l : list (option B)) a :
  fold_left (fun a o => match o with Some _ => (a + 1)%Z | None => a end) l a =
  (a + fold_left (fun a o => match o with Some _ => (a + 1)%Z | None => a end) l 0)%Z.
Proof.
  revert a; induction l as [|[o|] l IH]; intros a; cbn [fold_left]; [lia| |apply IH].
  rewrite (IH (a + 1)%Z), (IH (0 + 1)%Z). lia.
Qed.

Lemma sum_shift (l : list (option Q)) a :
  fold_left (fun a o => match o with Some v => a + v | None => a end) l a ==
  a + fold_left (fun a o => match o with Some v => a + v | None => a end) l 0.
Proof.
  revert a; induction l as [|[o|] l IH]; intros a; cbn [fold_left]; [lra| |apply IH].
  rewrite (IH (a + o)), (IH (0 + o)). lra.
Qed.

Lemma total_of P sites l :
  Forall2 (fun kv o => (P (fst kv) /\ o = Some (snd kv)) \/ (~ P (fst kv) /\ o = None)) sites l ->
  total P sites (fold_left (fun a o => match o with Some _ => (a + 1)%Z | None => a end) l 0%Z)
    (fold_left (fun a o => match o with Some v => a + v | None => a end) l 0).
Proof.
  induction 1 as [|[k v] o sites l [[H ->]|[H ->]] F IH]; cbn [fold_left fst snd] in *.
  - constructor. reflexivity.
  - rewrite (count_shift l (0 + 1)%Z), Z.add_comm.
    replace (0 + 1)%Z with 1%Z by reflexivity.
    eapply total_in; [exact H|exact IH|]. rewrite sum_shift. lra.
  - apply total_out; assumption.
Qed.

Lemma total_unique P sites n s n' s' :
  total P sites n s -> total P sites n' s' -> n = n' /\ s == s'.
Proof.
  intros H; revert n' s'. induction H as [s E|k v l n s s1 Hp H IH E|k v l n s Hp H IH];
    intros n' s' H'; inversion H'; subst; try contradiction.
  - split; [reflexivity|]. lra.
  - match goal with T : total P l ?m ?t, Q1 : s' == ?t + v |- _ =>
      destruct (IH _ _ T) as [-> E']; split; [reflexivity|]; rewrite E, Q1, E'; reflexivity end.
  - apply IH. assumption.
Qed.

Lemma total_equal P sites n s s' : total P sites n s -> s == s' -> total P sites n s'.
Proof.
  intros H; revert s'. induction H as [s E|k v l n s s1 Hp H IH E|k v l n s Hp H IH]; intros s' E'.
  - constructor. lra.
  - eapply total_in; [exact Hp|exact H|]. lra.
  - apply total_out; [exact Hp|]. apply IH. exact E'.
Qed.

(** The count of the loop with ones is the number of sites. *)
Lemma total_ones P sites l :
  Forall2 (fun kv o => (P (fst kv) /\ o = Some (snd kv)) \/ (~ P (fst kv) /\ o = None))
    (map (fun k => (k, 1%Z)) sites) l ->
  exists s, total P (map (fun k => (k, k)) sites)
    (fold_left (fun a o => match o with Some v => (a + v)%Z | None => a end) l 0%Z) s.
Proof.
  assert (Sh : forall (l : list (option Z)) a,
    fold_left (fun a o => match o with Some v => (a + v)%Z | None => a end) l a =
    (a + fold_left (fun a o => match o with Some v => (a + v)%Z | None => a end) l 0)%Z).
  { clear. induction l as [|[o|] l IH]; intros a; cbn [fold_left]; [lia| |apply IH].
    rewrite (IH (a + o)%Z), (IH (0 + o)%Z). lia. }
  revert l; induction sites as [|k sites IH]; intros l H; cbn [map] in *.
  - inversion H; subst. exists 0. constructor. reflexivity.
  - inversion H as [|? o ? l' Hk F]; subst. destruct (IH _ F) as [s T].
    destruct Hk as [[Hp ->]|[Hp ->]]; cbn [fold_left fst snd] in *.
    + exists (s + k). rewrite Sh, Z.add_comm. eapply total_in; [exact Hp|exact T|reflexivity].
    + exists s. apply total_out; assumption.
Qed.

Lemma nth_error_repeat {A} (x : A) n b : (b < n)%nat -> nth_error (repeat x n) b = Some x.
Proof.
  intros H. destruct (nth_error (repeat x n) b) as [y|] eqn:E.
  - apply nth_error_In, repeat_spec in E. congruence.
  - apply nth_error_None in E. rewrite repeat_length in E. lia.
Qed.

Lemma total_nonneg P sites n s : total P sites n s -> (0 <= n)%Z.
Proof. induction 1; lia. Qed.

(** The cached information belongs to the parameters. *)
Definition fresh powf sites (st : binning) : Prop :=
  length (k_avg st) = bins (par st) /\ length (bin_count st) = bins (par st) /\
  (forall b r, nth_error (k_avg st) b = Some r -> right_k powf sites (par st) b r) /\
  (forall b c, nth_error (bin_count st) b = Some c -> right_count powf sites (par st) b c).

Lemma calculate_spec powf sites st :
  fits powf sites (par st) ->
  exists st', calculate powf sites st = Some st' /\ par st' = par st /\ fresh powf sites st'.
Proof.
  intros Hf. unfold calculate. set (p := par st) in *.
  destruct (collect_spec Qplus powf p (map (fun k => (k, k)) sites) (repeat 0 (bins p)))
    as (s & S1 & S2 & S3).
  { intros k v H. apply in_map_iff in H. destruct H as (x & E & H). injection E as -> _.
    apply Hf, H. }
  { apply repeat_length. }
  destruct (collect_spec Z.add powf p (map (fun k => (k, 1%Z)) sites) (repeat 0%Z (bins p)))
    as (c & C1 & C2 & C3).
  { intros k v H. apply in_map_iff in H. destruct H as (x & E & H). injection E as -> _.
    apply Hf, H. }
  { apply repeat_length. }
  rewrite S1, C1. cbn [bind].
  eexists. split; [reflexivity|]. split; [reflexivity|].
  assert (Rc : forall b x, nth_error c b = Some x -> right_count powf sites p b x).
  { intros b x Hx. assert (Hb : (b < bins p)%nat).
    { rewrite <- C2. apply nth_error_Some. congruence. }
    destruct (C3 b 0%Z (nth_error_repeat _ _ _ Hb)) as (l & L1 & L2).
    rewrite Hx in L2. injection L2 as ->. exact (total_ones _ _ _ L1). }
  split; [|split; [|split]]; cbn [par k_avg bin_count].
  - rewrite map_length, combine_length, S2, C2. apply Nat.min_id.
  - exact C2.
  - intros b r Hr.
    assert (Hb : (b < bins p)%nat).
    { assert (H : (b < length (map (fun x => quotient (fst x) (snd x)) (combine s c)))%nat)
        by (apply nth_error_Some; congruence).
      rewrite map_length, combine_length, S2, C2 in H. lia. }
    destruct (nth_error s b) as [x|] eqn:Ex; [|apply nth_error_None in Ex; lia].
    destruct (nth_error c b) as [n|] eqn:En; [|apply nth_error_None in En; lia].
    assert (Er : r = quotient x n).
    { assert (Ec : nth_error (combine s c) b = Some (x, n)).
      { clear - Ex En. revert s c Ex En. induction b as [|b IH]; intros [|a s] [|d c] Ex En;
          cbn in *; try discriminate; [congruence|]. apply IH; assumption. }
      apply (map_nth_error (fun x => quotient (fst x) (snd x))) in Ec. cbn in Ec. congruence. }
    destruct (S3 b 0 (nth_error_repeat _ _ _ Hb)) as (l & L1 & L2).
    rewrite Ex in L2. injection L2 as Hx. apply total_of in L1. rewrite <- Hx in L1.
    destruct (Rc b n En) as [s' T].
    destruct (total_unique _ _ _ _ _ _ L1 T) as [Hn Hs]. rewrite Hn in L1.
    exists n, x. split; [exact L1|]. rewrite Er. unfold quotient.
    destruct (Z.eqb_spec n 0) as [->|Hz]; [reflexivity|].
    pose proof (total_nonneg _ _ _ _ L1). split; [lia|]. field.
    intros F. exact (Hz (proj1 (inject_Z_injective n 0) F)).
  - exact Rc.
Qed.

Lemma query_k_spec powf sites i st :
  fits powf sites (par st) ->
  (k_avg st = [] \/ fresh powf sites st) -> (0 < bins (par st))%nat ->
  (0 <= i < Z.of_nat (bins (par st)))%Z ->
  exists st' r, query_k powf sites i st = Some (st', r) /\ par st' = par st /\
    fresh powf sites st' /\ right_k powf sites (par st) (Z.to_nat i) r.
Proof.
  intros Hf Hc Hb Hi. unfold query_k.
  assert (F : exists st', (if Nat.eqb (length (k_avg st)) 0 then calculate powf sites st else Some st)
      = Some st' /\ par st' = par st /\ fresh powf sites st').
  { destruct (Nat.eqb_spec (length (k_avg st)) 0) as [E|E].
    - apply calculate_spec, Hf.
    - exists st. split; [reflexivity|]. split; [reflexivity|].
      destruct Hc as [Hc|Hc]; [rewrite Hc in E; cbn in E; lia|exact Hc]. }
  destruct F as (st' & F1 & F2 & F3). rewrite F1. cbn [bind]. rewrite F2.
  destruct (Z.leb_spec 0 i); [|lia]. destruct (Z.ltb_spec i (Z.of_nat (bins (par st)))); [|lia].
  cbn [andb]. pose proof F3 as (K1 & K2 & K3 & K4).
  destruct (nth_error (k_avg st') (Z.to_nat i)) as [r|] eqn:Er.
  2:{ apply nth_error_None in Er. rewrite K1, F2 in Er. lia. }
  cbn [bind]. exists st', r. split; [reflexivity|]. split; [exact F2|]. split; [exact F3|].
  rewrite <- F2. apply K3. exact Er.
Qed.

Lemma query_count_spec powf sites i st :
  fits powf sites (par st) ->
  (bin_count st = [] \/ fresh powf sites st) -> (0 < bins (par st))%nat ->
  (0 <= i < Z.of_nat (bins (par st)))%Z ->
  exists st' r, query_count powf sites i st = Some (st', r) /\ par st' = par st /\
    fresh powf sites st' /\ right_count powf sites (par st) (Z.to_nat i) r.
Proof.
  intros Hf Hc Hb Hi. unfold query_count.
  assert (F : exists st', (if Nat.eqb (length (bin_count st)) 0 then calculate powf sites st else Some st)
      = Some st' /\ par st' = par st /\ fresh powf sites st').
  { destruct (Nat.eqb_spec (length (bin_count st)) 0) as [E|E].
    - apply calculate_spec, Hf.
    - exists st. split; [reflexivity|]. split; [reflexivity|].
      destruct Hc as [Hc|Hc]; [rewrite Hc in E; cbn in E; lia|exact Hc]. }
  destruct F as (st' & F1 & F2 & F3). rewrite F1. cbn [bind]. rewrite F2.
  destruct (Z.leb_spec 0 i); [|lia]. destruct (Z.ltb_spec i (Z.of_nat (bins (par st)))); [|lia].
  cbn [andb]. pose proof F3 as (K1 & K2 & K3 & K4).
  destruct (nth_error (bin_count st') (Z.to_nat i)) as [r|] eqn:Er.
  2:{ apply nth_error_None in Er. rewrite K2, F2 in Er. lia. }
  cbn [bind]. exists st', r. split; [reflexivity|]. split; [exact F2|]. split; [exact F3|].
  rewrite <- F2. apply K4. exact Er.
Qed.

(** Binning a field uses the current parameters, whatever is in the cache. *)
Lemma bin_field_spec powf sites f st :
  fits powf sites (par st) -> length f = length sites ->
  exists st' s, bin_field powf sites f st = Some (st', s) /\ par st' = par st /\
    right_sums powf sites f (par st) s /\
    (st' = st /\ length (k_avg st) = bins (par st) \/ fresh powf sites st').
Proof.
  intros Hf Hl. unfold bin_field.
  assert (F : exists st', (if Nat.eqb (length (k_avg st)) (bins (par st)) then Some st
      else calculate powf sites st) = Some st' /\ par st' = par st /\
      (st' = st /\ length (k_avg st) = bins (par st) \/ fresh powf sites st')).
  { destruct (Nat.eqb_spec (length (k_avg st)) (bins (par st))) as [E|E].
    - exists st. split; [reflexivity|]. split; [reflexivity|]. left. split; [reflexivity|exact E].
    - destruct (calculate_spec powf sites st Hf) as (st' & A & B & C).
      exists st'. split; [exact A|]. split; [exact B|]. right. exact C. }
  destruct F as (st' & F1 & F2 & F3). rewrite F1. cbn [bind]. rewrite F2.
  destruct (collect_spec Qplus powf (par st) (combine sites f) (repeat 0 (bins (par st))))
    as (s & S1 & S2 & S3).
  { intros k v H. apply in_combine_l in H. apply Hf, H. }
  { apply repeat_length. }
  rewrite S1. cbn [bind]. exists st', s. split; [reflexivity|]. split; [exact F2|].
  split; [|exact F3]. split; [exact S2|]. intros b Hb.
  destruct (S3 b 0 (nth_error_repeat _ _ _ Hb)) as (l & L1 & L2).
  apply total_of in L1. rewrite (nth_error_nth _ _ _ L2). eexists. exact L1.
Qed.

(** ** Bin limits *)

Lemma limits_spec powf p b kr :
  power_like powf (power p) -> Proper (Qeq ==> Qeq ==> Qeq) powf ->
  0 < max p -> (0 < bins p)%nat -> 0 <= kr ->
  (in_k_bin powf p b kr <->
   bin_min powf p (Z.of_nat b) <= kr < bin_max powf p (Z.of_nat b)).
Proof.
  intros L Pr Hm Hb Hk. unfold in_k_bin, bin_max, bin_min.
  set (n := inject_Z (Z.of_nat (bins p))).
  assert (Hn : 0 < n).
  { unfold n. change 0 with (inject_Z 0). rewrite <- Zlt_Qlt. lia. }
  rewrite inject_Z_plus. set (i := inject_Z (Z.of_nat b)).
  assert (Hi : 0 <= i).
  { unfold i. change 0 with (inject_Z 0). rewrite <- Zle_Qle. lia. }
  change (inject_Z 1) with 1.
  set (x := kr / max p).
  assert (Hx : 0 <= x) by (unfold x; apply Qle_shift_div_l; [exact Hm|lra]).
  assert (Ex : kr == x * max p) by (unfold x; field; lra).
  assert (Key : forall c, 0 <= c ->
      (c <= powf x (power p) * n <-> powf (c / n) (1 / power p) * max p <= kr)).
  { intros c Hc.
    assert (Hcn : 0 <= c / n) by (apply Qle_shift_div_l; [exact Hn|lra]).
    split; intros H.
    - rewrite Ex. apply Qmult_le_compat_r; [|lra].
      rewrite <- (pl_root _ _ L x Hx). apply (pl_root_mono _ _ L); [exact Hcn|].
      apply Qle_shift_div_r; [exact Hn|exact H].
    - assert (H' : powf (c / n) (1 / power p) <= x).
      { unfold x. apply Qle_shift_div_l; assumption. }
      apply (pl_mono _ _ L) in H'; [|apply (pl_root_pos _ _ L), Hcn].
      rewrite (pl_power _ _ L _ Hcn) in H'.
      assert (Ec : c == (c / n) * n) by (field; lra).
      rewrite Ec. apply Qmult_le_compat_r; [exact H'|lra]. }
  pose proof (Key i Hi) as K1. pose proof (Key (i + 1) ltac:(lra)) as K2.
  split; intros [A B]; split.
  - apply K1, A.
  - apply Qnot_le_lt. intros F. apply K2 in F. lra.
  - apply K1, A.
  - apply Qnot_le_lt. intros F. apply K2 in F. lra.
Qed.

(** ** Parameters *)

Definition changes (l : list change) (p : params) : params :=
  fold_left (fun p c => apply_change c p) l p.

Lemma set_max_spec km p :
  0 < km -> 0 < width p -> bins_set p = false ->
  let q := set_max km p in
  width q = width p /\ max q == width q * inject_Z (Z.of_nat (bins q)) /\
  km <= max q < km + width p /\ (0 < bins q)%nat.
Proof.
  intros Hk Hw Hs. unfold set_max. rewrite Hs. cbn [width max bins].
  assert (Hq : 0 < km / width p) by (apply Qlt_shift_div_l; [exact Hw|lra]).
  pose proof (Qle_ceiling (km / width p)) as C1.
  pose proof (Qceiling_lt (km / width p)) as C2.
  assert (Hc : (0 < Qceiling (km / width p))%Z).
  { rewrite Zlt_Qlt. change (inject_Z 0) with 0. lra. }
  rewrite Z2Nat.id by lia.
  unfold Z.sub in C2. rewrite inject_Z_plus in C2. change (inject_Z (- (1))) with (- (1))%Q in C2.
  set (c := inject_Z (Qceiling (km / width p))) in *.
  assert (E : km == width p * (km / width p)) by (field; lra).
  split; [reflexivity|]. split; [reflexivity|]. split; [|lia].
  set (q := km / width p) in *. clearbody q c. split.
  - rewrite E. apply Qmult_le_l; assumption.
  - assert (width p * c < width p * (q + 1)) by (apply Qmult_lt_l; [assumption|lra]).
    rewrite E. lra.
Qed.
