(** C29, C30, C50: shuffles, seeds of the ranks, partitions. *)
From Coq Require Import Permutation.
From Verif Require Import Common RandomModel RandomSpec RandomProofs1 RandomProofs2.
Open Scope Z_scope.

(** ** C29 *)
Theorem C29_permutation : forall A (arr : list A) rnd, (forall k, in_unit_interval (rnd k)) ->
  exists out, shuffle rnd arr = Some out /\ Permutation out arr.
Proof. intros A arr rnd H. apply shuffle_from_perm; [exact H|lia]. Qed.
Print Assumptions C29_permutation.

(** Every arrangement comes out for some random numbers (array sizes are ints). *)
Theorem C29_reachable : forall A (arr out : list A), Permutation out arr -> Z.of_nat (length arr) < 2 ^ 31 ->
  exists rnd, (forall k, in_unit_interval (rnd k)) /\ shuffle rnd arr = Some out.
Proof.
  intros A arr out Hp Hl. destruct (shuffle_reach (length arr) arr out [] 0 eq_refl Hp ltac:(lia)) as [rnd [H1 H2]].
  exists rnd. split; [exact H1|]. unfold shuffle. rewrite !app_nil_r in H2. exact H2.
Qed.
Print Assumptions C29_reachable.

Theorem C29_directions_and_parities : forall ndim rnd, (forall k, in_unit_interval (rnd 0 k)) ->
  exists out, (forall rank, shuffle_directions_and_parities ndim rnd rank = Some out) /\
    NoDup out /\ (forall d p, In (d, p) out <-> 0 <= d < Z.of_nat ndim).
Proof.
  intros ndim rnd H. destruct (C29_permutation _ (directions_and_parities ndim) (rnd 0) H) as [out [Ho Hp]].
  exists out. split; [intros; exact Ho|]. split.
  - apply (Permutation_NoDup (Permutation_sym Hp)). unfold directions_and_parities, directions.
    clear. generalize 0 as a. induction ndim as [|n IH]; intros a; [constructor|]. cbn [zrange flat_map app].
    assert (Ha : forall p, ~ In (a, p) (flat_map (fun d => [(d, EVEN); (d, ODD)]) (zrange (a + 1) n))).
    { intros p Hin. apply in_flat_map in Hin. destruct Hin as [d [Hd Hin]]. apply zrange_In in Hd.
      destruct Hin as [E|[E|[]]]; injection E as E _; lia. }
    constructor; [|constructor; [apply Ha|apply IH]]. intros [E|Hin]; [discriminate|]. exact (Ha _ Hin).
  - intros d p. transitivity (In (d, p) (directions_and_parities ndim)).
    { split; apply Permutation_in; [exact Hp|now apply Permutation_sym]. }
    unfold directions_and_parities, directions. rewrite in_flat_map. split.
    + intros [d' [Hd' Hin]]. apply zrange_In in Hd'. destruct Hin as [E|[E|[]]]; injection E as -> _; lia.
    + intros Hd. exists d. split; [apply zrange_In; lia|]. destruct p; cbn; auto.
Qed.
Print Assumptions C29_directions_and_parities.

Theorem C29_directions : forall ndim rnd, (forall k, in_unit_interval (rnd 0 k)) ->
  exists dirs pars,
    (forall rank, shuffle_directions ndim rnd rank = Some dirs /\ shuffle_parities rnd rank = Some pars) /\
    NoDup dirs /\ (forall d, In d dirs <-> 0 <= d < Z.of_nat ndim) /\ (pars = [EVEN; ODD] \/ pars = [ODD; EVEN]).
Proof.
  intros ndim rnd H. destruct (C29_permutation _ (directions ndim) (rnd 0) H) as [dirs [Hd Hpd]].
  destruct (C29_permutation _ [EVEN; ODD] (rnd 0) H) as [pars [Hq Hpq]].
  exists dirs, pars. split; [intros; split; assumption|]. split; [|split].
  - apply (Permutation_NoDup (Permutation_sym Hpd)). apply zrange_NoDup.
  - intros d. transitivity (In d (directions ndim)).
    { split; apply Permutation_in; [exact Hpd|now apply Permutation_sym]. }
    unfold directions. rewrite zrange_In. lia.
  - apply Permutation_sym, Permutation_length_2_inv in Hpq. tauto.
Qed.
Print Assumptions C29_directions.

Example C29_example :
  in_unit_interval (mkDouble (2 ^ 53 - 1) 53) /\
  random_index 6 (mkDouble (2 ^ 53 - 1) 53) = 6 /\
  shuffle (fun k => nth k [mkDouble (2 ^ 53 - 1) 53; mkDouble 1 2; mkDouble 3 1074] (mkDouble 0 0)) [10; 11; 12; 13] = Some [11; 12; 10; 13] /\
  shuffle (fun _ => mkDouble 0 0) [10; 11; 12; 13] = Some [11; 12; 13; 10] /\
  shuffle_parities (fun r k => if r =? 0 then mkDouble 0 0 else mkDouble 1 1) 3 = Some [ODD; EVEN].
Proof. unfold in_unit_interval. cbn [mant expo]. split; [lia|]. split; [reflexivity|]. split; [vm_compute; reflexivity|]. split; reflexivity. Qed.

(** ** C30 *)
Theorem C30_single : forall seed clock nodes r1 r2, 0 <= r1 -> r1 < r2 -> r2 < 2 ^ 31 ->
  seed_random 1 0 nodes r1 clock seed <> seed_random 1 0 nodes r2 clock seed.
Proof.
  intros seed clock nodes r1 r2 H1 H2 H3 E. unfold seed_random, shuffle_rng_seed in E. cbn [Z.ltb Z.compare Pos.compare Pos.compare_cont] in E.
  set (s := if seed =? 0 then clock else seed) in *.
  apply (f_equal (fun z => z mod 2 ^ 31)) in E. cbv beta in E. rewrite !shuffled_low in E by lia.
  apply add_mod_inj in E; lia.
Qed.
Print Assumptions C30_single.

Theorem C30_partitions : forall seed clock P nodes p1 r1 p2 r2, seed <> 0 -> 1 < P -> P * nodes <= 2 ^ 28 ->
  0 <= p1 < P -> 0 <= p2 < P -> 0 <= r1 < nodes -> 0 <= r2 < nodes -> (p1, r1) <> (p2, r2) ->
  seed_random P p1 nodes r1 (clock p1) seed <> seed_random P p2 nodes r2 (clock p2) seed.
Proof.
  intros seed clock P nodes p1 r1 p2 r2 Hs HP HN Hp1 Hp2 Hr1 Hr2 Hne E. unfold seed_random, shuffle_rng_seed in E.
  destruct (Z.ltb_spec 1 P); [|lia]. destruct (Z.eqb_spec seed 0); [contradiction|].
  assert (B1 : 0 <= r1 + p1 * nodes < 2 ^ 28) by nia. assert (B2 : 0 <= r2 + p2 * nodes < 2 ^ 28) by nia.
  apply (f_equal (fun z => z mod 2 ^ 28)) in E. cbv beta in E. rewrite !shuffled_low in E by lia.
  assert (En : u64 (r1 + p1 * nodes) = r1 + p1 * nodes /\ u64 (r2 + p2 * nodes) = r2 + p2 * nodes)
    by (unfold u64; rewrite !Z.mod_small by lia; auto).
  destruct En as [E1 E2]. rewrite E1, E2 in E.
  rewrite <- (Zplus_mod_idemp_l (Z.lxor seed (u64 (Z.shiftl p1 28)))), <- (Zplus_mod_idemp_l (Z.lxor seed (u64 (Z.shiftl p2 28)))) in E.
  rewrite !xor_low in E. rewrite !Zplus_mod_idemp_l in E.
  assert (Eq : r1 + p1 * nodes = r2 + p2 * nodes).
  { apply (add_mod_inj (2 ^ 28) seed); try lia; auto. }
  assert (p1 = p2) by nia. subst p2. apply Hne. f_equal. lia.
Qed.
Print Assumptions C30_partitions.

(** With seed 0 every partition reads its own clock: two ranks can then get the same
    seed. *)
Theorem C30_clock_partitions_refuted :
  exists sec0 nsec0 sec1 nsec1, 0 <= nsec0 < 10 ^ 9 /\ 0 <= nsec1 < 10 ^ 9 /\ sec0 <> sec1 /\
    seed_random 2 0 1 0 (clock_seed sec0 nsec0) 0 = seed_random 2 1 1 0 (clock_seed sec1 nsec1) 0.
Proof. exists 100, 268435457, 102, 0. split; [lia|]. split; [lia|]. split; [lia|]. vm_compute. reflexivity. Qed.
Print Assumptions C30_clock_partitions_refuted.

Example C30_example :
  seed_random 1 0 8 0 0 12345 = 12345 /\ seed_random 1 0 8 3 0 12345 = 6442463292 /\
  seed_random 4 2 2 1 0 12345 <> seed_random 4 3 2 0 0 12345 /\ seed_random 4 0 2 0 0 12345 = 12345.
Proof. vm_compute. repeat split; discriminate. Qed.

(** ** C50 *)
Theorem C50_partitions : forall N P, 0 < P -> 0 < N -> N mod P = 0 -> (P = 1 \/ (N - 1) * P <= int_max) ->
  exists n, N = P * n /\
  exists colour, (forall r, 0 <= r < N -> mylattice N P r = Some (Some (colour r)) /\ 0 <= colour r < P) /\
    forall r, 0 <= r < N ->
      split_size (Z.to_nat N) colour r = n /\
      split_rank (Z.to_nat N) colour r = Some (r - colour r * n) /\ 0 <= r - colour r * n < n /\
      (forall r', In r' (members (Z.to_nat N) colour (colour r)) <-> colour r * n <= r' < (colour r + 1) * n).
Proof.
  intros N P HP HN Hm Ho. apply Z.mod_divide in Hm; [|lia]. destruct Hm as [n Hn]. rewrite Z.mul_comm in Hn. exists n. split; [exact Hn|].
  assert (Hn0 : 0 < n) by nia. exists (fun r => r / n). subst N. split.
  - intros r Hr. split; [|split; [apply Z.div_pos; lia|apply Z.div_lt_upper_bound; lia]]. unfold mylattice.
    destruct (Z.eqb_spec P 1) as [->|Hne].
    + f_equal. f_equal. symmetry. apply Z.div_small. lia.
    + rewrite Z.mul_comm, Z.mod_mul by lia. cbn [Z.eqb negb]. destruct (Z.ltb_spec int_max (r * P)); [nia|].
      f_equal. f_equal. rewrite (Z.mul_comm n P). apply colour_of; lia.
  - intros r Hr. assert (Hc : 0 <= r / n < P) by (split; [apply Z.div_pos; lia|apply Z.div_lt_upper_bound; lia]).
    assert (Hdm := Z.div_mod r n ltac:(lia)). assert (Hmb := Z.mod_pos_bound r n Hn0).
    unfold split_size, split_rank, members. rewrite (members_block P n (r / n) HP Hn0 Hc). split; [|split; [|split]].
    + rewrite zrange_length. lia.
    + rewrite position_zrange by lia. reflexivity.
    + lia.
    + intros r'. rewrite zrange_In. lia.
Qed.
Print Assumptions C50_partitions.

Theorem C50_not_divisible : forall N P r, 0 < P -> N mod P <> 0 -> mylattice N P r = Some None.
Proof.
  intros N P r HP Hm. unfold mylattice. destruct (Z.eqb_spec P 1) as [->|]; [rewrite Z.mod_1_r in Hm; lia|].
  destruct (Z.eqb_spec (N mod P) 0); [contradiction|reflexivity].
Qed.
Print Assumptions C50_not_divisible.

(** The int product of rank and number of partitions overflows for many partitions. *)
Theorem C50_many_partitions_refuted :
  ~ (forall N P r, 0 < P -> 0 < N <= int_max -> N mod P = 0 -> 0 <= r < N -> exists p, mylattice N P r = Some (Some p)).
Proof.
  intros H. destruct (H 65536 65536 65535 ltac:(lia) ltac:(unfold int_max; lia) eq_refl ltac:(lia)) as [p E]. vm_compute in E. discriminate.
Qed.
Print Assumptions C50_many_partitions_refuted.

Example C50_example :
  6 mod 3 = 0 /\ (6 - 1) * 3 <= int_max /\ mylattice 6 3 4 = Some (Some 2) /\
  members 6 (fun r => r * 3 / 6) 2 = [4; 5] /\ split_rank 6 (fun r => r * 3 / 6) 5 = Some 1 /\ mylattice 6 4 1 = Some None.
Proof. unfold int_max. repeat split; try reflexivity; lia. Qed.
