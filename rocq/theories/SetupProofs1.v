(** Proofs about the automatic layout. *)
From Coq Require Import Znumtheory.
From Verif Require Import Common LayoutModel LayoutSpec LayoutProofs1 LayoutProofs2 SetupModel.

(** *** Factorization *)
Definition prime_test (p : Z) : bool :=
  (1 <? p) && forallb (fun n => negb (p mod n =? 0)) (zrange 2 (Z.to_nat (p - 2))).
Lemma prime_test_ok : forall p, prime_test p = true -> prime p.
Proof.
  intros p H. apply andb_true_iff in H. destruct H as [H1 H2]. apply Z.ltb_lt in H1.
  apply prime_alt. split; auto. intros n Hn Hd. rewrite forallb_forall in H2.
  specialize (H2 n ltac:(apply zrange_In; lia)). apply Z.mod_divide in Hd; [|lia]. rewrite Hd in H2. discriminate.
Qed.
Lemma primes_prime : Forall prime primes.
Proof. repeat (constructor; [apply prime_test_ok; vm_compute; reflexivity|]). constructor. Qed.

Lemma divide_out_ok : forall fuel p i, 1 < p -> 0 < i ->
  let '(j, n) := divide_out fuel p i in 0 < j /\ i = j * zprod (repeat p n).
Proof.
  induction fuel as [|k IH]; intros p i Hp Hi; cbn [divide_out]; [cbn; lia|].
  destruct (Z.eqb_spec (i mod p) 0) as [E|E]; [|cbn; lia].
  assert (Hd := Z.div_mod i p ltac:(lia)). rewrite E in Hd.
  specialize (IH p (i / p) Hp ltac:(nia)). destruct (divide_out k p (i / p)) as [j n]. destruct IH as [A1 A2].
  split; auto. cbn [repeat]. rewrite zprod_cons. nia.
Qed.
Lemma factor_list_ok : forall ps i, Forall prime ps -> 0 < i ->
  let '(k, fs) := factor_list ps i in 0 < k /\ i = k * zprod fs /\ Forall prime fs.
Proof.
  induction ps as [|p ps IH]; intros i Hp Hi; cbn [factor_list]; [cbn; split; [lia|split; [lia|constructor]]|].
  inversion Hp; subst. assert (P := prime_ge_2 p H1).
  assert (D := divide_out_ok (Z.to_nat (Z.log2 i) + 1) p i ltac:(lia) Hi).
  destruct (divide_out (Z.to_nat (Z.log2 i) + 1) p i) as [j n]. destruct D as [D1 D2].
  specialize (IH j H2 D1). destruct (factor_list ps j) as [k fs]. destruct IH as (A1 & A2 & A3).
  split; auto. split; [rewrite zprod_app; nia|]. apply Forall_app. split; auto.
  clear - H1. induction n; cbn; constructor; auto.
Qed.
Lemma factorize_ok : forall nn fs, 0 < nn -> factorize nn = Some fs -> zprod fs = nn /\ Forall prime fs.
Proof.
  intros nn fs Hn H. unfold factorize in H. assert (X := factor_list_ok primes nn primes_prime Hn).
  destruct (factor_list primes nn) as [k l]. destruct (Z.eqb_spec k 1); [|discriminate]. inversion H; subst.
  destruct X as (_ & X & Y). split; auto. lia.
Qed.
(** Fuel: the division loop really runs to the end. *)
Lemma divide_out_done : forall fuel p i, 1 < p -> 0 < i -> i < 2 ^ Z.of_nat fuel ->
  fst (divide_out fuel p i) mod p <> 0.
Proof.
  induction fuel as [|k IH]; intros p i Hp Hi Hf; cbn [divide_out]; [cbn in Hf; lia|].
  destruct (Z.eqb_spec (i mod p) 0) as [E|E]; [|exact E].
  assert (Hd := Z.div_mod i p ltac:(lia)). rewrite E in Hd.
  assert (Hq : i / p < 2 ^ Z.of_nat k). { rewrite Nat2Z.inj_succ, Z.pow_succ_r in Hf by lia. nia. }
  specialize (IH p (i / p) Hp ltac:(nia) Hq). destruct (divide_out k p (i / p)). exact IH.
Qed.
Lemma divide_out_fuel : forall p i, 1 < p -> 0 < i -> fst (divide_out (Z.to_nat (Z.log2 i) + 1) p i) mod p <> 0.
Proof.
  intros p i Hp Hi. apply divide_out_done; auto.
  replace (Z.of_nat (Z.to_nat (Z.log2 i) + 1)) with (Z.succ (Z.log2 i)) by (assert (X := Z.log2_nonneg i); lia).
  apply Z.log2_spec. auto.
Qed.

(** *** Lists *)
Lemma update_length : forall k f l, length (update k f l) = length l.
Proof. induction k as [|k IH]; intros f [|x l]; cbn; auto. Qed.
Lemma update_nth : forall k f l j, (k < length l)%nat -> nth j (update k f l) 0 = if Nat.eqb j k then f (nth j l 0) else nth j l 0.
Proof.
  induction k as [|k IH]; intros f [|x l] j H; cbn in H; try lia; destruct j; cbn; auto. apply IH. lia.
Qed.
Lemma update_prod : forall k f l, (k < length l)%nat -> zprod (update k f l) * nth k l 0 = f (nth k l 0) * zprod l.
Proof.
  induction k as [|k IH]; intros f [|x l] H; cbn in H; try lia; cbn [update nth]; rewrite !zprod_cons; [nia|].
  assert (E := IH f l ltac:(lia)). rewrite <- Z.mul_assoc, E. ring.
Qed.
Lemma zprod_div_nth : forall l k, (k < length l)%nat -> nth k l 0 <> 0 -> zprod l = nth k l 0 * (zprod l / nth k l 0).
Proof.
  intros l k H Hn. assert (E := update_prod k (fun _ => 1) l H).
  rewrite Z.mul_1_l in E. rewrite <- E at 2. rewrite Z.div_mul by auto. lia.
Qed.
Lemma cosize_update : forall l k, (k < length l)%nat -> nth k l 0 <> 0 -> zprod l / nth k l 0 = zprod (update k (fun _ => 1) l).
Proof.
  intros l k H Hn. assert (E := update_prod k (fun _ => 1) l H).
  rewrite Z.mul_1_l in E. rewrite <- E. rewrite Z.div_mul by auto. auto.
Qed.
Lemma pos_nth : forall l k, Forall (fun x => 0 < x) l -> (k < length l)%nat -> 0 < nth k l 0.
Proof. intros l k H Hk. rewrite Forall_forall in H. apply H, nth_In. auto. Qed.
Lemma nth_pos_Forall : forall l, (forall k, (k < length l)%nat -> 0 < nth k l 0) -> Forall (fun x => 0 < x) l.
Proof. intros l H. apply Forall_forall. intros x Hx. apply (In_nth _ _ 0) in Hx. destruct Hx as (k & Hk & <-). auto. Qed.
Lemma prime_divides_some : forall p l, prime p -> (p | zprod l) -> exists k, (k < length l)%nat /\ (p | nth k l 0).
Proof.
  intros p l Hp. induction l as [|x l IH]; intros H.
  - exfalso. cbn in H. apply Z.divide_1_r in H. assert (P := prime_ge_2 p Hp). lia.
  - rewrite zprod_cons in H. apply prime_mult in H; auto. destruct H as [H|H].
    + exists 0%nat. cbn. split; [lia|auto].
    + destruct (IH H) as (k & Hk & Hd). exists (S k). cbn. split; [lia|auto].
Qed.

(** *** Slicing *)
Lemma largest_divisible_ok : forall p sz m0,
  let m := fold_left (fun m s => if (s >? m) && (s mod p =? 0) then s else m) sz m0 in
  m0 <= m /\ (forall s, In s sz -> s mod p = 0 -> s <= m) /\ (m = m0 \/ (In m sz /\ m mod p = 0)).
Proof.
  intros p sz. induction sz as [|s sz IH]; intros m0 m; cbn [fold_left] in m.
  - subst m. split; [lia|]. split; [intros s []|auto].
  - specialize (IH (if (s >? m0) && (s mod p =? 0) then s else m0)). fold m in IH. cbv zeta in IH.
    destruct IH as (A1 & A2 & A3). rewrite Z.gtb_ltb in *.
    destruct (Z.ltb_spec m0 s); destruct (Z.eqb_spec (s mod p) 0); cbn [andb] in *;
      (split; [lia|split; [intros s' [<-|Hs'] Hd; [first [lia|contradiction]|auto]|]]);
      destruct A3 as [A3|[A3 A4]]; auto; try (right; split; [right; exact A3|exact A4]).
    right. rewrite A3. split; [left; auto|auto].
Qed.

Lemma find_last_some : forall n t d, find_last n t = Some d -> (d < n)%nat /\ t d = true.
Proof.
  intros n t d H. unfold find_last in H. apply find_some in H. destruct H as [H1 H2].
  apply in_rev, in_seq in H1. split; [lia|auto].
Qed.
Lemma find_last_none : forall n t d, find_last n t = None -> (d < n)%nat -> t d = false.
Proof.
  intros n t d H Hd. unfold find_last in H. apply (find_none _ _ H). apply in_rev. rewrite rev_involutive. apply in_seq. lia.
Qed.

Lemma pick_ok : forall p sz dv, prime p -> (p | zprod sz) -> Forall (fun x => 0 < x) sz ->
  exists d, pick_direction p sz dv = Some d /\ (d < length sz)%nat /\ (p | nth d sz 0).
Proof.
  intros p sz dv Hp Hd Hs. assert (P := prime_ge_2 p Hp). unfold pick_direction.
  destruct (find_last _ _) as [d|] eqn:E1.
  - apply find_last_some in E1. destruct E1 as [A1 A2]. exists d. split; auto. split; auto.
    apply andb_true_iff in A2. destruct A2 as [_ A2]. apply Z.eqb_eq in A2. apply Z.mod_divide; auto. lia.
  - destruct (find_last (length sz) (fun d => (nth d sz 0 =? largest_divisible p sz) && (nth d sz 0 mod p =? 0))) as [d|] eqn:E2.
    + apply find_last_some in E2. destruct E2 as [A1 A2]. exists d. split; auto. split; auto.
      apply andb_true_iff in A2. destruct A2 as [_ A2]. apply Z.eqb_eq in A2. apply Z.mod_divide; auto. lia.
    + exfalso. destruct (prime_divides_some p sz Hp Hd) as (k & Hk & Hkd).
      destruct (largest_divisible_ok p sz 1) as (B1 & B2 & B3). fold (largest_divisible p sz) in B1, B2, B3.
      assert (Hm : nth k sz 0 mod p = 0) by (apply Z.mod_divide; auto; lia).
      assert (B4 := B2 _ (nth_In sz 0 Hk) Hm). assert (Hpos := pos_nth sz k Hs Hk).
      assert (p <= nth k sz 0) by (apply Z.divide_pos_le; auto).
      destruct B3 as [B3|[B3 B5]]; [lia|]. apply (In_nth _ _ 0) in B3. destruct B3 as (j & Hj & Ej).
      assert (X := find_last_none _ _ j E2 Hj). cbn beta in X. rewrite Ej, Z.eqb_refl in X. rewrite B5 in X. discriminate.
Qed.

Lemma slice_ok : forall fs sz dv, Forall prime fs -> length dv = length sz ->
  Forall (fun x => 0 < x) sz -> Forall (fun x => 0 < x) dv -> (zprod fs | zprod sz) ->
  exists sz' dv', slice fs sz dv = Some (sz', dv') /\ length sz' = length sz /\ length dv' = length sz /\
    Forall (fun x => 0 < x) sz' /\ Forall (fun x => 0 < x) dv' /\
    (forall j, (j < length sz)%nat -> nth j sz' 0 * nth j dv' 0 = nth j sz 0 * nth j dv 0) /\
    zprod dv' = zprod fs * zprod dv.
Proof.
  induction fs as [|p fs IH]; intros sz dv Hf Hl Hs Hd Hdiv; cbn [slice].
  - exists sz, dv. repeat (split; auto). change (zprod []) with 1. lia.
  - inversion Hf; subst. assert (P := prime_ge_2 p H1). rewrite zprod_cons in Hdiv.
    destruct (pick_ok p sz dv H1) as (d & -> & Hdl & Hdd); auto.
    { eapply Z.divide_trans; [|exact Hdiv]. exists (zprod fs). lia. }
    assert (Hpos := pos_nth sz d Hs Hdl).
    assert (Ediv : nth d sz 0 = p * (nth d sz 0 / p)) by (destruct Hdd as (q & ->); rewrite Z.div_mul by lia; lia).
    assert (Hdv : (d < length dv)%nat) by lia. assert (Hdpos := pos_nth dv d Hd Hdv).
    assert (Es := update_prod d (fun s => s / p) sz Hdl). assert (Ed := update_prod d (fun s => s * p) dv Hdv).
    cbn beta in Es, Ed.
    destruct (IH (update d (fun s => s / p) sz) (update d (fun s => s * p) dv)) as (sz' & dv' & E1 & E2 & E3 & E4 & E5 & E6 & E7); auto.
    + rewrite !update_length. auto.
    + apply nth_pos_Forall. rewrite update_length. intros j Hj. rewrite update_nth by auto.
      destruct (Nat.eqb_spec j d) as [->|]; [nia|apply pos_nth; auto].
    + apply nth_pos_Forall. rewrite update_length. intros j Hj. rewrite update_nth by auto.
      destruct (Nat.eqb_spec j d) as [->|]; [nia|apply pos_nth; auto].
    + assert (zprod sz = p * zprod (update d (fun s => s / p) sz)).
      { apply (Z.mul_reg_r _ _ (nth d sz 0)); [lia|]. rewrite <- Z.mul_assoc, Es, Z.mul_assoc, <- Ediv. ring. }
      destruct Hdiv as (q & Hq). exists q. apply (Z.mul_reg_l _ _ p); [lia|]. rewrite <- H, Hq. ring.
    + exists sz', dv'. rewrite update_length in *. repeat (split; auto).
      * intros j Hj. rewrite E6 by auto. rewrite !update_nth by lia. destruct (Nat.eqb_spec j d) as [->|]; [nia|auto].
      * rewrite E7, zprod_cons.
        assert (zprod (update d (fun s => s * p) dv) = p * zprod dv) as ->; [|ring].
        apply (Z.mul_reg_r _ _ (nth d dv 0)); [lia|]. rewrite Ed. ring.
Qed.

(** *** The ghosted size *)
Lemma ghost_size_ok : forall fuel n c nn, 0 < nn -> (exists m, n <= m < n + Z.of_nat fuel /\ (m * c) mod nn = 0) ->
  let g := ghost_size fuel n c nn in n <= g /\ (g * c) mod nn = 0 /\
  (forall m, n <= m -> (m * c) mod nn = 0 -> g <= m).
Proof.
  induction fuel as [|k IH]; intros n c nn Hn (m & Hm & Em); cbn [ghost_size]; [lia|].
  destruct (Z.eqb_spec ((n * c) mod nn) 0) as [E|E].
  - repeat split; auto; lia.
  - destruct (IH (n + 1) c nn Hn) as (A1 & A2 & A3).
    + exists m. split; auto. assert (m <> n) by congruence. lia.
    + repeat split; auto; try lia. intros m' Hm' Em'. apply A3; auto. assert (m' <> n) by congruence. lia.
Qed.
Lemma nsize_ok : forall ls nn d, 0 < nn ->
  nth d ls 1 <= nsize ls nn d /\ (nsize ls nn d * cosize ls d) mod nn = 0 /\
  (forall m, nth d ls 1 <= m -> (m * cosize ls d) mod nn = 0 -> nsize ls nn d <= m).
Proof.
  intros ls nn d Hn. apply ghost_size_ok; auto.
  set (L := nth d ls 1). exists (- ((- L) / nn) * nn).
  assert (D := Z.div_mod (- L) nn ltac:(lia)). assert (M := Z.mod_pos_bound (- L) nn Hn).
  split; [nia|]. replace (- (- L / nn) * nn * cosize ls d) with ((- (- L / nn) * cosize ls d) * nn) by ring.
  apply Z.mod_mul. lia.
Qed.

Lemma start_sizes_length : forall ls nn m, length (start_sizes ls nn m) = length ls.
Proof. intros. unfold start_sizes. rewrite map_length, seq_length. auto. Qed.
Lemma start_sizes_nth : forall ls nn m j, (j < length ls)%nat ->
  nth j (start_sizes ls nn m) 0 = if Nat.eqb j m then nsize ls nn j else nth j ls 1.
Proof.
  intros ls nn m j Hj. unfold start_sizes.
  set (F := fun d => if Nat.eqb d m then nsize ls nn d else nth d ls 1).
  rewrite (nth_indep _ 0 (F 0%nat)) by (rewrite map_length, seq_length; auto).
  rewrite map_nth, seq_nth by auto. reflexivity.
Qed.
Lemma list_eq_nth : forall (a b : list Z), length a = length b -> (forall j, (j < length a)%nat -> nth j a 0 = nth j b 0) -> a = b.
Proof. intros a b Hl H. apply (nth_ext _ _ 0 0); auto. Qed.
Lemma nth_1_0 : forall (l : list Z) j, (j < length l)%nat -> nth j l 1 = nth j l 0.
Proof. intros. apply nth_indep. auto. Qed.

Lemma start_sizes_update : forall ls nn m, (m < length ls)%nat ->
  start_sizes ls nn m = update m (fun _ => nsize ls nn m) ls.
Proof.
  intros ls nn m Hm. apply list_eq_nth; [rewrite start_sizes_length, update_length; auto|].
  rewrite start_sizes_length. intros j Hj. rewrite start_sizes_nth, update_nth by auto.
  destruct (Nat.eqb_spec j m) as [->|]; auto. apply nth_1_0; auto.
Qed.

Lemma min_ghost_lt : forall gh n m, (m < n)%nat -> (min_ghost gh n m < n)%nat.
Proof.
  intros gh n m Hm. unfold min_ghost. assert (H : forall l m, (m < n)%nat -> (forall j, In j l -> (j < n)%nat) ->
    (fold_left (fun m j => if gh m >? gh j then j else m) l m < n)%nat).
  { induction l as [|j l IH]; intros m0 H0 Hl; cbn; auto. apply IH; [|intros; apply Hl; right; auto].
    destruct (_ >? _); auto. apply Hl. left; auto. }
  apply H; auto. intros j Hj. apply in_seq in Hj. lia.
Qed.

(** *** One attempt *)
Section Attempt.
  Variables (ls : list Z) (nn : Z) (fs : list Z).
  Hypothesis Hls : Forall (fun x => 0 < x) ls.
  Hypothesis Hn : 0 < nn.
  Hypothesis Hf : zprod fs = nn.
  Hypothesis Hp : Forall prime fs.

  Lemma start_prod : forall m, (m < length ls)%nat -> zprod (start_sizes ls nn m) = nsize ls nn m * cosize ls m.
  Proof.
    intros m Hm. rewrite start_sizes_update by auto. assert (Hpos := pos_nth ls m Hls Hm).
    assert (E := update_prod m (fun _ => nsize ls nn m) ls Hm). cbn beta in E.
    unfold cosize. rewrite nth_1_0 by auto.
    assert (E2 := zprod_div_nth ls m Hm ltac:(lia)).
    apply (Z.mul_reg_r _ _ (nth m ls 0)); [lia|]. nia.
  Qed.

  Lemma attempt_ok : forall m, (m < length ls)%nat ->
    exists sz dv, slice fs (start_sizes ls nn m) (map (fun _ => 1) ls) = Some (sz, dv) /\
      length sz = length ls /\ length dv = length ls /\
      Forall (fun x => 0 < x) sz /\ Forall (fun x => 0 < x) dv /\ zprod dv = nn /\
      (forall j, (j < length ls)%nat -> j <> m -> nth j sz 0 * nth j dv 0 = nth j ls 0) /\
      nth m sz 0 * nth m dv 0 = nsize ls nn m /\
      nth m ls 0 <= nsize ls nn m < nth m ls 0 + nth m dv 0.
  Proof.
    intros m Hm. destruct (nsize_ok ls nn m Hn) as (N1 & N2 & N3).
    assert (Hone : forall j, (j < length ls)%nat -> nth j (map (fun _ => 1) ls) 0 = 1).
    { intros j Hj. clear - Hj. revert j Hj. generalize ls. intros l; induction l as [|x l IH]; intros [|j] Hj; cbn in *; try lia; auto. apply IH. lia. }
    assert (Hs : Forall (fun x => 0 < x) (start_sizes ls nn m)).
    { apply nth_pos_Forall. rewrite start_sizes_length. intros j Hj. rewrite start_sizes_nth by auto.
      assert (X := pos_nth ls j Hls Hj). rewrite <- nth_1_0 in X by auto. destruct (Nat.eqb_spec j m) as [->|]; lia. }
    destruct (slice_ok fs (start_sizes ls nn m) (map (fun _ => 1) ls)) as (sz & dv & E1 & E2 & E3 & E4 & E5 & E6 & E7); auto.
    - rewrite map_length, start_sizes_length. auto.
    - apply nth_pos_Forall. rewrite map_length. intros j Hj. rewrite Hone by auto. lia.
    - rewrite Hf, start_prod by auto. apply Z.mod_divide; auto. lia.
    - rewrite start_sizes_length in *. exists sz, dv.
      assert (Hone' : zprod (map (fun _ => 1) ls) = 1) .
      { generalize ls. intros l; induction l as [|x l IH]; auto. cbn [map]. rewrite zprod_cons, IH. auto. }
      assert (Hdv : zprod dv = nn) by (rewrite E7, Hf, Hone'; lia).
      assert (Hj : forall j, (j < length ls)%nat -> j <> m -> nth j sz 0 * nth j dv 0 = nth j ls 0).
      { intros j Hj Hjm. rewrite E6, Hone, start_sizes_nth, nth_1_0 by auto. destruct (Nat.eqb_spec j m); [contradiction|lia]. }
      assert (Em : nth m sz 0 * nth m dv 0 = nsize ls nn m).
      { rewrite E6, Hone, start_sizes_nth, Nat.eqb_refl by auto. lia. }
      assert (Hbound : nsize ls nn m < nth m ls 0 + nth m dv 0).
      { (* the product of the other divisions divides cosize *)
        assert (Hmd : (m < length dv)%nat) by lia. assert (Pd := pos_nth dv m E5 Hmd).
        set (P := zprod (update m (fun _ => 1) dv)).
        assert (EP : nth m dv 0 * P = nn).
        { assert (X := update_prod m (fun _ => 1) dv Hmd). fold P in X. rewrite Hdv in X. nia. }
        assert (DP : (P | cosize ls m)).
        { unfold cosize. rewrite nth_1_0 by auto. rewrite cosize_update by (auto; assert (X := pos_nth ls m Hls Hm); lia).
          unfold P. assert (H : forall a b, length a = length b -> (forall j, (j < length a)%nat -> (nth j a 0 | nth j b 0)) -> (zprod a | zprod b)).
          { clear. induction a as [|x a IH]; intros [|y b] Hl H; try discriminate; [exists 1; auto|].
            rewrite !zprod_cons.
            destruct (H 0%nat ltac:(cbn; lia)) as (u & Hu). cbn in Hu.
            destruct (IH b ltac:(cbn in Hl; lia) (fun j Hj => H (S j) ltac:(cbn; lia))) as (v & Hv). exists (u * v). rewrite Hu, Hv. ring. }
          apply H; [rewrite !update_length; lia|]. rewrite update_length. intros j Hj'. rewrite !update_nth by lia.
          destruct (Nat.eqb_spec j m) as [->|Hjm]; [exists 1; auto|]. exists (nth j sz 0). rewrite Hj by lia. auto. }
        set (D := nth m dv 0) in *. set (L := nth m ls 0) in *.
        assert (X : nsize ls nn m <= - ((- L) / D) * D).
        { assert (D1 := Z.div_mod (- L) D ltac:(lia)). assert (M := Z.mod_pos_bound (- L) D Pd).
          apply N3; [rewrite nth_1_0 by auto; fold L; nia|].
          destruct DP as (q & ->). replace (- (- L / D) * D * (q * P)) with ((- (- L / D) * q) * (D * P)) by ring.
          rewrite EP. apply Z.mod_mul. lia. }
        assert (D1 := Z.div_mod (- L) D ltac:(lia)). assert (M := Z.mod_pos_bound (- L) D Pd). nia. }
      rewrite nth_1_0 in N1 by auto. repeat (split; [assumption|]). auto.
  Qed.
End Attempt.
