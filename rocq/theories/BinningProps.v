(** C44: binning of momentum space. *)
From Coq Require Import ZArith QArith Qround List Bool Lia Lqa.
From Verif Require Import SrcbufModel BinningModel BinningSpec BinningProofs1.
Import ListNotations.
Open Scope Q_scope.

(** A use that changes no parameter, of a field with a value for each site. *)
Definition only_asks (sites : list Q) (u : use) : Prop :=
  match u with
  | Change _ => False
  | Bin f => length f = length sites
  | _ => True
  end.

Definition with_changes (l : list change) (st : binning) : binning :=
  mkBinning (changes l (par st)) (k_avg st) (bin_count st).

Definition unused (st : binning) : Prop := k_avg st = [] /\ bin_count st = [].

Lemma asks_keep powf sites u st :
  only_asks sites u -> fits powf sites (par st) -> (0 < bins (par st))%nat ->
  unused st \/ fresh powf sites st ->
  exists st', step powf sites u st = Some st' /\ par st' = par st /\
    (unused st' \/ fresh powf sites st').
Proof.
  intros Hu Hf Hb Hc. destruct u as [c|i|i|f]; cbn [only_asks step] in *; [contradiction| | |].
  - destruct (Z_lt_ge_dec i 0) as [Hi|Hi]; [|destruct (Z_lt_ge_dec i (Z.of_nat (bins (par st)))) as [Hi2|Hi2]].
    2:{ destruct (query_k_spec powf sites i st) as (st' & r & E & Ep & Ef & _);
          [exact Hf| |exact Hb|lia|].
        - destruct Hc as [[Hc _]|Hc]; auto.
        - rewrite E. exists st'. auto. }
    all: unfold query_k;
      assert (F : exists st', (if Nat.eqb (length (k_avg st)) 0 then calculate powf sites st else Some st)
        = Some st' /\ par st' = par st /\ (unused st' \/ fresh powf sites st'));
      [destruct (Nat.eqb (length (k_avg st)) 0);
        [destruct (calculate_spec powf sites st Hf) as (st' & A & B & C); exists st'; auto
        |exists st; auto]|];
      destruct F as (st' & F1 & F2 & F3); rewrite F1; cbn [bind]; rewrite F2.
    + replace ((0 <=? i) && (i <? Z.of_nat (bins (par st))))%Z with false
        by (destruct (Z.leb_spec 0 i); [lia|reflexivity]).
      exists st'. auto.
    + replace ((0 <=? i) && (i <? Z.of_nat (bins (par st))))%Z with false
        by (destruct (Z.ltb_spec i (Z.of_nat (bins (par st)))); [lia|rewrite andb_false_r; reflexivity]).
      exists st'. auto.
  - destruct (Z_lt_ge_dec i 0) as [Hi|Hi]; [|destruct (Z_lt_ge_dec i (Z.of_nat (bins (par st)))) as [Hi2|Hi2]].
    2:{ destruct (query_count_spec powf sites i st) as (st' & r & E & Ep & Ef & _);
          [exact Hf| |exact Hb|lia|].
        - destruct Hc as [[_ Hc]|Hc]; auto.
        - rewrite E. exists st'. auto. }
    all: unfold query_count;
      assert (F : exists st', (if Nat.eqb (length (bin_count st)) 0 then calculate powf sites st else Some st)
        = Some st' /\ par st' = par st /\ (unused st' \/ fresh powf sites st'));
      [destruct (Nat.eqb (length (bin_count st)) 0);
        [destruct (calculate_spec powf sites st Hf) as (st' & A & B & C); exists st'; auto
        |exists st; auto]|];
      destruct F as (st' & F1 & F2 & F3); rewrite F1; cbn [bind]; rewrite F2.
    + replace ((0 <=? i) && (i <? Z.of_nat (bins (par st))))%Z with false
        by (destruct (Z.leb_spec 0 i); [lia|reflexivity]).
      exists st'. auto.
    + replace ((0 <=? i) && (i <? Z.of_nat (bins (par st))))%Z with false
        by (destruct (Z.ltb_spec i (Z.of_nat (bins (par st)))); [lia|rewrite andb_false_r; reflexivity]).
      exists st'. auto.
  - destruct (bin_field_spec powf sites f st Hf Hu) as (st' & s & E & Ep & _ & D).
    rewrite E. exists st'. split; [reflexivity|]. split; [exact Ep|].
    destruct D as [[-> _]|D]; auto.
Qed.

(** When all parameters are set before anything is asked for, every answer is
    right: the average and the number of the sites that are in the bin. *)
Theorem C44_answers : forall powf sites st l asks,
  unused st ->
  let p := changes l (par st) in
  fits powf sites p -> (0 < bins p)%nat -> Forall (only_asks sites) asks ->
  exists st', uses powf sites (map Change l ++ asks) st = Some st' /\ par st' = p /\
    forall i, (0 <= i < Z.of_nat (bins p))%Z ->
      (exists st1 r, query_k powf sites i st' = Some (st1, r) /\
         right_k powf sites p (Z.to_nat i) r) /\
      (exists st1 c, query_count powf sites i st' = Some (st1, c) /\
         right_count powf sites p (Z.to_nat i) c).
Proof.
  intros powf sites st l asks Hu p Hf Hb Ha.
  assert (E : uses powf sites (map Change l ++ asks) st =
              uses powf sites asks (with_changes l st)).
  { unfold with_changes, changes. clear. revert st. induction l as [|c l IH]; intros st.
    - destruct st; reflexivity.
    - cbn [map app uses step bind]. rewrite IH. reflexivity. }
  assert (G : forall st1, par st1 = p -> unused st1 \/ fresh powf sites st1 ->
     exists st', uses powf sites asks st1 = Some st' /\ par st' = p /\
       (unused st' \/ fresh powf sites st')).
  { clear E. induction asks as [|u asks IH]; intros st1 Hp H1; [exists st1; auto|].
    destruct (asks_keep powf sites u st1) as (st2 & A & B & C).
    - exact (Forall_inv Ha).
    - rewrite Hp; exact Hf.
    - rewrite Hp; exact Hb.
    - exact H1.
    - cbn [uses]. rewrite A. cbn [bind]. apply IH; [exact (Forall_inv_tail Ha)|congruence|exact C]. }
  destruct (G (with_changes l st)) as (st' & A & B & C); [reflexivity|left; exact Hu|].
  exists st'. rewrite E. split; [exact A|]. split; [exact B|]. intros i Hi. rewrite <- B in *.
  split.
  - destruct (query_k_spec powf sites i st') as (st1 & r & Q1 & _ & _ & Q2); auto.
    + destruct C as [[C _]|C]; auto.
    + exists st1, r. auto.
  - destruct (query_count_spec powf sites i st') as (st1 & r & Q1 & _ & _ & Q2); auto.
    + destruct C as [[_ C]|C]; auto.
    + exists st1, r. auto.
Qed.
Print Assumptions C44_answers.

(** Binning a field follows the parameters of the moment, in every state. *)
Theorem C44_sums : forall powf sites f st,
  fits powf sites (par st) -> length f = length sites ->
  exists st' s, bin_field powf sites f st = Some (st', s) /\ par st' = par st /\
    right_sums powf sites f (par st) s.
Proof.
  intros powf sites f st Hf Hl.
  destruct (bin_field_spec powf sites f st Hf Hl) as (st' & s & A & B & C & _).
  exists st', s. auto.
Qed.
Print Assumptions C44_sums.

(** The limits of a bin that are reported are those that are used. *)
Theorem C44_limits : forall powf p b kr,
  power_like powf (power p) -> Proper (Qeq ==> Qeq ==> Qeq) powf ->
  0 < max p -> (0 < bins p)%nat -> 0 <= kr ->
  (in_k_bin powf p b kr <->
   bin_min powf p (Z.of_nat b) <= kr < bin_max powf p (Z.of_nat b)).
Proof. exact limits_spec. Qed.
Print Assumptions C44_limits.

(** While the number of bins has not been set, choosing the largest momentum
    keeps the width and rounds up to whole bins. *)
Theorem C44_k_max : forall km p,
  0 < km -> 0 < width p -> bins_set p = false ->
  let q := set_max km p in
  width q = width p /\ max q == width q * inject_Z (Z.of_nat (bins q)) /\
  km <= max q < km + width p /\ (0 < bins q)%nat.
Proof. exact set_max_spec. Qed.
Print Assumptions C44_k_max.

(** An example: momenta 1 and 3, bins of width 2. *)
Definition example_pow (x p : Q) : Q := x.
Definition example_sites : list Q := [1; 3].
Definition example_binning : binning := make_with 4 2.

Example example_pow_like : power_like example_pow 1 /\ Proper (Qeq ==> Qeq ==> Qeq) example_pow.
Proof.
  split.
  - split; unfold example_pow; intros; try assumption; reflexivity.
  - intros x y H ? ? _. exact H.
Qed.

Lemma example_fits m n : 0 < m -> (0 < n)%nat -> m * 1000 >= inject_Z (Z.of_nat n) ->
  fits example_pow example_sites (mkParams m 1 1 n true).
Proof.
  intros Hm Hn H k Hk. cbn [max power bins]. unfold example_pow.
  assert (Hn' : 0 < inject_Z (Z.of_nat n)).
  { change 0 with (inject_Z 0). rewrite <- Zlt_Qlt. lia. }
  set (x := inject_Z (Z.of_nat n)) in *.
  assert (Hk' : 0 <= k <= 3).
  { destruct Hk as [<-|[<-|[]]]; lra. }
  assert (E : k / m * x == k * (x / m)) by (field; lra).
  assert (Hq : 0 <= x / m <= 1000).
  { split; [apply Qle_shift_div_l; lra|apply Qle_shift_div_r; lra]. }
  rewrite E. set (q := x / m) in *. change (inject_Z 2147483648) with 2147483648. clearbody q.
  split.
  - apply Qmult_le_0_compat; lra.
  - assert (k * q <= 3 * q) by (apply Qmult_le_compat_r; lra). lra.
Qed.

Example answers_example :
  let l := [SetMax 8; SetBins 4] in
  let p := changes l (par example_binning) in
  unused example_binning /\ fits example_pow example_sites p /\ (0 < bins p)%nat /\
  Forall (only_asks example_sites) [AskK 0; Bin [5; 7]] /\
  (exists st c, query_count example_pow example_sites 1
     (with_changes l example_binning) = Some (st, c) /\ c = 1%Z).
Proof.
  cbv zeta. split; [split; reflexivity|]. split; [|split; [cbn; lia|split]].
  - intros k Hk. apply (example_fits 8 4); [lra|lia|vm_compute; discriminate|exact Hk].
  - repeat constructor.
  - eexists. exists 1%Z. split; reflexivity.
Qed.

(** The information is not recomputed when a parameter changes later: the
    number of sites in a bin is wrong, *)
Theorem C44_stale_refuted :
  ~ (forall powf sites st l st' i,
      unused st -> uses powf sites l st = Some st' ->
      fits powf sites (par st') -> (0 < bins (par st'))%nat ->
      (0 <= i < Z.of_nat (bins (par st')))%Z ->
      forall st1 c, query_count powf sites i st' = Some (st1, c) ->
      right_count powf sites (par st') (Z.to_nat i) c).
Proof.
  intros H.
  assert (U : exists st', uses example_pow example_sites [AskCount 0; Change (SetMax 8)]
      example_binning = Some st' /\ par st' = mkParams 8 1 (4 / inject_Z 2) 2 true /\
      exists st1, query_count example_pow example_sites 0 st' = Some (st1, 1%Z)).
  { eexists. split; [reflexivity|]. split; [reflexivity|]. eexists. reflexivity. }
  destruct U as (st' & U & P & st1 & Q1).
  specialize (H example_pow example_sites example_binning _ st' 0%Z
    ltac:(split; reflexivity) U).
  rewrite P in H. specialize (H (example_fits 8 2 ltac:(lra) ltac:(lia) ltac:(vm_compute; discriminate))
    ltac:(cbn; lia) ltac:(cbn; lia) _ _ Q1).
  destruct H as [s T].
  assert (I1 : in_k_bin example_pow (mkParams 8 1 (4 / inject_Z 2) 2 true) 0 1)
    by (split; vm_compute; congruence).
  assert (I3 : in_k_bin example_pow (mkParams 8 1 (4 / inject_Z 2) 2 true) 0 3)
    by (split; vm_compute; congruence).
  assert (T2 : total (in_k_bin example_pow (mkParams 8 1 (4 / inject_Z 2) 2 true) 0)
     (map (fun k => (k, k)) example_sites) 2 4).
  { apply (total_in _ 1 1 _ 1 3); [exact I1| |reflexivity].
    apply (total_in _ 3 3 _ 0 0); [exact I3| |reflexivity]. constructor. reflexivity. }
  destruct (total_unique _ _ _ _ _ _ T T2) as [F _]. discriminate.
Qed.
Print Assumptions C44_stale_refuted.

(** and with more bins than before the old vector is read beyond its end. *)
Theorem C44_range_refuted :
  ~ (forall powf sites st l st' i,
      unused st -> uses powf sites l st = Some st' ->
      fits powf sites (par st') -> (0 < bins (par st'))%nat ->
      (0 <= i < Z.of_nat (bins (par st')))%Z ->
      query_k powf sites i st' <> None).
Proof.
  intros H.
  assert (U : exists st', uses example_pow example_sites [AskK 0; Change (SetBins 4)]
      example_binning = Some st' /\ par st' = mkParams 4 1 (4 / inject_Z 4) 4 true /\
      query_k example_pow example_sites 3 st' = None).
  { eexists. split; [reflexivity|]. split; reflexivity. }
  destruct U as (st' & U & P & Q1).
  apply (H example_pow example_sites example_binning _ st' 3%Z ltac:(split; reflexivity) U);
    rewrite ?P; [|cbn; lia|cbn; lia|exact Q1].
  exact (example_fits 4 4 ltac:(lra) ltac:(lia) ltac:(vm_compute; discriminate)).
Qed.
Print Assumptions C44_range_refuted.

(** The reported width is not that of the bins once the number of bins has
    been set and the largest momentum is changed. *)
Theorem C44_width_refuted :
  ~ (forall st l, unused st -> 0 < width (par st) ->
      width (par st) * inject_Z (Z.of_nat (bins (par st))) == max (par st) ->
      let p := changes l (par st) in
      width p * inject_Z (Z.of_nat (bins p)) == max p).
Proof.
  intros H. specialize (H example_binning [SetMax 8] ltac:(split; reflexivity)
    ltac:(reflexivity) ltac:(reflexivity)).
  vm_compute in H. discriminate.
Qed.
Print Assumptions C44_width_refuted.

(** A momentum above the largest one, with a high power, is converted to an
    [int] it does not fit. *)
Theorem C44_conversion_refuted :
  ~ (forall powf sites p, (forall x q, 0 <= x -> 0 <= powf x q) ->
      (forall k, In k sites -> 0 <= k) -> 0 < max p -> (0 < bins p)%nat ->
      forall k, In k sites -> get_k_bin powf p k <> None).
Proof.
  intros H.
  refine (H (fun x q => x * x * x * x * x * x * x * x) [64] (mkParams 1 8 1 1 true) _ _ _ _ 64 _ _);
    [| |reflexivity|cbn; lia|left; reflexivity|reflexivity].
  - intros x q Hx. repeat (apply Qmult_le_0_compat; [|exact Hx]). exact Hx.
  - intros k [<-|[]]. discriminate.
Qed.
Print Assumptions C44_conversion_refuted.
